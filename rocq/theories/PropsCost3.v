(** C84: how many constraints the gadgets add. *)
From Coq Require Import ZArith List Bool Arith Lia Znumtheory.
From Verif Require Import Base FieldM FieldP ExprM BuilderM GadgetsM CryptoM CurveM WaksmanM Spec SpecCrypto ExprP BitsP BinUtilP ArithP CostP CurveP CmpP GadgetCompleteP GadgetCostP
  CryptoP MatrixP SpongeP Demo PropLib PropsCost PropsCost2 PropsCrypto PropsMix PropsArith.
Import ListNotations.
Open Scope nat_scope.

(** On every builder the call succeeds, takes back no wire and no constraint, and adds at most [n] constraints. *)
Definition takes_at_most {A} (m : B A) (n : nat) : Prop := forall b, 0 < next b ->
  exists r b', m b = Ok (r, b') /\ next b <= next b' /\
    length (constraints b) <= length (constraints b') <= length (constraints b) + n.

Lemma takes_costs {A} (m : B A) n : takes_at_most m n <-> forall N, 0 < N -> costs N m (fun _ _ k => k <= n).
Proof.
  split.
  - intros H N LN b <-. destruct (H b LN) as (r & b' & E & L & K).
    exists r, b', (length (constraints b') - length (constraints b)). split; [exact E|]. split; [exact L|]. lia.
  - intros H b LN. destruct (H _ LN b eq_refl) as (r & b' & k & E & L & K & Hk). exists r, b'. split; [exact E|]. split; [exact L|lia].
Qed.
Lemma takes_weaken {A} (m : B A) n n' : n <= n' -> takes_at_most m n -> takes_at_most m n'.
Proof. intros L H b Hb. destruct (H b Hb) as (r & b' & E & L1 & L2). exists r, b'. split; [exact E|]. split; [exact L1|lia]. Qed.

(** * Tests, arithmetic, boolean operations, splitting *)
Section Basic.
Context {F : Field}.

Lemma costs_nonzero N x : costs N (nonzero x) (fun r N' k => r = e_wire N /\ N' = N + 2 /\ k = 2).
Proof.
  unfold nonzero. kbind ltac:(apply costs_wire). intros w N1 c1 _ (-> & -> & ->). kbind ltac:(apply costs_wire). intros w N2 c2 _ (-> & -> & ->).
  kbind ltac:(apply costs_assert_product). intros _ N3 c3 _ (-> & ->). kbind ltac:(apply costs_assert_product). intros _ N4 c4 _ (-> & ->).
  kbind ltac:(apply costs_generator). intros _ N5 c5 _ (-> & ->). apply costs_ret. repeat split; lia.
Qed.
Lemma costs_zero N x : costs N (g_zero x) (fun r N' k => k = 2).
Proof.
  unfold g_zero, b_not. kbind ltac:(apply costs_nonzero). intros r N1 c1 _ (-> & -> & ->). apply costs_ret. reflexivity.
Qed.
Lemma costs_inverse_or_zero N x : costs N (inverse_or_zero x) (fun r N' k => r = e_wire N /\ k = 3).
Proof.
  unfold inverse_or_zero. kbind ltac:(apply costs_wire). intros w N1 c1 _ (-> & -> & ->).
  kbind ltac:(apply costs_nonzero). intros r N2 c2 _ (-> & -> & ->).
  kbind ltac:(apply costs_assert_product). intros _ N3 c3 _ (-> & ->). kbind ltac:(apply costs_generator). intros _ N4 c4 _ (-> & ->).
  apply costs_ret. split; [reflexivity|lia].
Qed.
End Basic.

Theorem C84_tests : forall (F : Field) x y,
  adds_exactly (nonzero x) 2 /\ adds_exactly (g_zero x) 2 /\ adds_exactly (g_equal x y) 2 /\
  adds_exactly (assert_nonzero x) 1 /\ adds_exactly (assert_nonequal x y) 1 /\ adds_exactly (assert_equal x y) 1 /\ adds_exactly (assert_zero x) 1 /\
  adds_exactly (assert_boolean x) 1 /\ adds_exactly (inverse x) 1 /\ adds_exactly (inverse_or_zero x) 3 /\ adds_exactly (quotient_unsafe x y) 0.
Proof.
  intros F x y. repeat apply conj; apply costs_adds; intros N LN.
  - eapply costs_weaken; [apply costs_nonzero|]. cbv beta. tauto.
  - apply costs_zero.
  - apply costs_zero.
  - apply costs_assert_nonzero.
  - apply costs_assert_nonzero.
  - eapply costs_weaken; [apply costs_assert_equal|]. cbv beta. tauto.
  - eapply costs_weaken; [apply costs_assert_zero|]. cbv beta. tauto.
  - eapply costs_weaken; [apply costs_assert_boolean|]. cbv beta. tauto.
  - eapply costs_weaken; [apply costs_inverse|]. cbv beta. tauto.
  - eapply costs_weaken; [apply costs_inverse_or_zero|]. cbv beta. tauto.
  - eapply costs_weaken; [apply costs_quotient_unsafe|]. cbv beta. tauto.
Qed.
Print Assumptions C84_tests.

Section Bool.
Context {F : Field} (Hord : (2 < order)%Z).
Let H2 : (2 <= order)%Z := Z.lt_le_incl _ _ Hord.

Lemma costs_and_le N x y : costs N (b_and x y) (fun _ _ k => k <= 1).
Proof. apply costs_product_le. Qed.
Lemma costs_or_le N x y : costs N (b_or x y) (fun _ _ k => k <= 1).
Proof. unfold b_or. kbind ltac:(apply costs_product_le). intros r N1 c1 _ H. apply costs_ret. lia. Qed.
Lemma scale_u128_two e : exists r, e_scale_u128 e 2 = Ok r.
Proof using Hord.
  unfold e_scale_u128. match goal with |- context [omap ?f e] => assert (E : exists l, omap f e = Ok l) end.
  { induction e as [|kv e [l E]]; [exists []; reflexivity|]. cbn [omap]. unfold fmul_u128 at 1. rewrite el_from_ok by (unfold infield; lia). cbn [obind].
    rewrite E. cbn [obind]. eexists. reflexivity. }
  destruct E as [l ->]. cbn [obind]. eexists. reflexivity.
Qed.
Lemma costs_xor_le N x y : costs N (b_xor x y) (fun _ _ k => k <= 1).
Proof using Hord.
  unfold b_xor. kbind ltac:(apply costs_product_le). intros r N1 c1 _ H. destruct (scale_u128_two r) as [s E]. eapply costs_lift; [exact E|]. apply costs_ret. lia.
Qed.
Lemma costs_and N x y : 0 < N -> not_constant x -> not_constant y -> costs N (b_and x y) (fun _ _ k => k = 1).
Proof using H2. intros LN Vx Vy. eapply costs_weaken; [apply (costs_product_varies H2); assumption|]. cbv beta. tauto. Qed.
Lemma costs_or N x y : 0 < N -> not_constant x -> not_constant y -> costs N (b_or x y) (fun _ _ k => k = 1).
Proof using H2. intros LN Vx Vy. unfold b_or. kbind ltac:(apply (costs_product_varies H2); assumption). intros r N1 c1 _ [_ ->]. apply costs_ret. lia. Qed.
Lemma costs_xor N x y : 0 < N -> not_constant x -> not_constant y -> costs N (b_xor x y) (fun _ _ k => k = 1).
Proof using H2 Hord.
  intros LN Vx Vy. unfold b_xor. kbind ltac:(apply (costs_product_varies H2); assumption). intros r N1 c1 _ [_ ->].
  destruct (scale_u128_two r) as [s E]. eapply costs_lift; [exact E|]. apply costs_ret. lia.
Qed.

(** A list of calls, each adding at most [n] constraints. *)
Lemma costs_bmap_le {A C} (f : A -> B C) n l : (forall a N, In a l -> 0 < N -> costs N (f a) (fun _ _ k => k <= n)) ->
  forall N, 0 < N -> costs N (bmap f l) (fun r _ k => length r = length l /\ k <= n * length l).
Proof.
  induction l as [|a l IH]; intros H N HN; cbn [bmap length]; [apply costs_ret; cbn [length]; lia|].
  kbind ltac:(apply H; [left; reflexivity|exact HN]). intros c N1 k1 L1 K1.
  kbind ltac:(apply IH; [intros; apply H; [right|]; assumption|lia]). intros cs N2 k2 L2 [E K2]. apply costs_ret. cbn [length]. lia.
Qed.

Lemma oindex_nth {A} (l : list A) i d : i < length l -> oindex l i = Ok (nth i l d).
Proof. intro H. unfold oindex. rewrite (nth_error_nth' l d) by exact H. reflexivity. Qed.

Lemma costs_bitwise_le op x y : (forall N a b, costs N (op a b) (fun _ _ k => k <= 1)) -> length x = length y ->
  forall N, 0 < N -> costs N (bitwise2 op x y) (fun _ _ k => k <= length x).
Proof.
  intros Hop L N LN. unfold bitwise2. eapply costs_lift; [unfold oassert; rewrite L, Nat.eqb_refl; reflexivity|].
  eapply costs_weaken; [apply (costs_bmap_le _ 1); [|exact LN]|].
  - intros i N1 Hi _. apply in_seq in Hi. eapply costs_lift; [apply (oindex_nth x i e_zero); lia|]. eapply costs_lift; [apply (oindex_nth y i e_zero); lia|]. apply Hop.
  - cbv beta. intros r N1 k _ [_ H]. rewrite seq_length in H. lia.
Qed.
Lemma costs_bitwise op x y : (forall N a b, 0 < N -> not_constant a -> not_constant b -> costs N (op a b) (fun _ _ k => k = 1)) -> length x = length y ->
  Forall not_constant x -> Forall not_constant y -> forall N, 0 < N -> costs N (bitwise2 op x y) (fun _ _ k => k = length x).
Proof.
  intros Hop L Vx Vy N LN. unfold bitwise2. eapply costs_lift; [unfold oassert; rewrite L, Nat.eqb_refl; reflexivity|].
  eapply costs_weaken; [apply (costs_bmap _ 1); [|exact LN]|].
  - intros i N1 Hi LN1. apply in_seq in Hi. eapply costs_lift; [apply (oindex_nth x i e_zero); lia|]. eapply costs_lift; [apply (oindex_nth y i e_zero); lia|].
    rewrite Forall_forall in Vx, Vy. apply Hop; [exact LN1|apply Vx, nth_In; lia|apply Vy, nth_In; lia].
  - cbv beta. intros r N1 k _ [_ ->]. rewrite seq_length. lia.
Qed.
End Bool.

(** Boolean operations, selection and bitwise operations: at most one constraint for each (pair of) bit(s), exactly one on expressions that are not constant. *)
Theorem C84_boolean : forall (F : Field), (2 < order)%Z ->
  (forall x y, takes_at_most (b_and x y) 1 /\ takes_at_most (b_or x y) 1 /\ takes_at_most (b_xor x y) 1) /\
  (forall x y, not_constant x -> not_constant y -> adds_exactly (b_and x y) 1 /\ adds_exactly (b_or x y) 1 /\ adds_exactly (b_xor x y) 1) /\
  (forall c x y, takes_at_most (selection c x y) 1 /\ (not_constant c -> not_constant (e_sub x y) -> adds_exactly (selection c x y) 1)) /\
  (forall x, adds_exactly (bitwise_not x) 0) /\
  (forall x y, length x = length y ->
     takes_at_most (bitwise_and x y) (length x) /\ takes_at_most (bitwise_or x y) (length x) /\ takes_at_most (bitwise_xor x y) (length x)) /\
  (forall x y, length x = length y -> Forall not_constant x -> Forall not_constant y ->
     adds_exactly (bitwise_and x y) (length x) /\ adds_exactly (bitwise_or x y) (length x) /\ adds_exactly (bitwise_xor x y) (length x)).
Proof.
  intros F H. assert (H2 : (2 <= order)%Z) by lia. split; [|split; [|split; [|split; [|split]]]].
  - intros x y. repeat apply conj; apply takes_costs; intros N LN; [apply costs_and_le|apply costs_or_le|apply (costs_xor_le H)].
  - intros x y Vx Vy. repeat apply conj; apply costs_adds; intros N LN; [apply (costs_and H)|apply (costs_or H)|apply (costs_xor H)]; assumption.
  - intros c x y. split; [apply takes_costs; intros N LN; apply costs_selection|]. intros Vc Vd. apply costs_adds. intros N LN. unfold selection.
    kbind ltac:(apply (costs_product_varies H2); assumption). intros r N1 c1 _ [_ ->]. apply costs_ret. lia.
  - intro x. apply costs_adds. intros N LN. unfold bitwise_not. eapply costs_weaken; [apply (costs_bmap _ 0); [|exact LN]|].
    + intros a N1 _ _. apply costs_ret. reflexivity.
    + cbv beta. intros r N1 k _ [_ ->]. reflexivity.
  - intros x y L. repeat apply conj; apply takes_costs; intros N LN; apply costs_bitwise_le; auto; intros; [apply costs_and_le|apply costs_or_le|apply (costs_xor_le H)].
  - intros x y L Vx Vy. repeat apply conj; apply costs_adds; intros N LN; apply costs_bitwise; auto; intros; [apply (costs_and H)|apply (costs_or H)|apply (costs_xor H)]; assumption.
Qed.
Print Assumptions C84_boolean.

(** Splitting and sums of binary words: one constraint for each bit of the result and one for the equation. *)
Theorem C84_splitting : forall (F : Field), (2 <= order)%Z ->
  (forall x, adds_exactly (split_allowing_ambiguity x) (max_bits + 1)) /\
  (forall x n, n < max_bits -> adds_exactly (split_bounded x n) (n + 1)) /\
  (forall n, adds_exactly (binary_wire n) n).
Proof.
  intros F H. split; [|split].
  - intro x. apply costs_adds. intros N LN. eapply costs_weaken; [apply (costs_swrc H); [exact LN|reflexivity]|]. cbv beta. intros ? ? k _ [_ ->]. lia.
  - intros x n L. apply costs_adds. intros N LN. eapply costs_weaken; [apply (costs_split_bounded H); [exact LN|exact L]|]. cbv beta. intros ? ? k _ [_ ->]. lia.
  - intro n. apply costs_adds. intros N LN. eapply costs_weaken; [apply costs_binary_wire; exact LN|]. cbv beta. tauto.
Qed.
Print Assumptions C84_splitting.

Section Words.
Context {F : Field} (Hp : prime order).
Let Hord : (2 <= order)%Z := prime_ge2 Hp.

Lemma omap_join ts : (forall t, In t ts -> length t < max_bits) -> exists js, omap bin_join ts = Ok js.
Proof using Hord.
  induction ts as [|t ts IH]; intro H; [exists []; reflexivity|]. cbn [omap].
  destruct (bin_join_ok Hord t) as [e ->].
  { apply Z.lt_le_incl, (pow2_lt_order Hord), H. left. reflexivity. }
  cbn [obind]. destruct IH as [js ->]; [intros; apply H; right; assumption|]. cbn [obind]. eauto.
Qed.

Lemma max_len_in ts (t : binexpr) : In t ts -> length t <= max_len ts.
Proof.
  unfold max_len. rewrite max_len_acc. cbn [Nat.max]. induction ts as [|u ts IH]; [intros []|]. cbn [fold_right map]. intros [->|I]; [lia|specialize (IH I); lia].
Qed.

Lemma costs_binary_summation N ts : 0 < N -> zbits (max_sum ts) < max_bits -> costs N (binary_summation ts) (fun r _ k =>
  length r = zbits (max_sum ts) /\ k = zbits (max_sum ts) + 1).
Proof using Hord.
  intros LN L. unfold binary_summation. cbv zeta. eapply costs_lift; [unfold oassert; rewrite (proj2 (Nat.ltb_lt _ _) L); reflexivity|].
  kbind ltac:(apply costs_binary_wire; exact LN). intros ws N1 k1 L1 [Lw ->].
  destruct (omap_join ts) as [js E]; [intros t I; pose proof (max_len_le ts); pose proof (max_len_in ts t I); lia|].
  eapply costs_lift; [exact E|]. destruct (bin_join_ok Hord (bin_of_wires ws)) as [e E'].
  { unfold bin_of_wires. rewrite map_length, Lw. apply Z.lt_le_incl, (pow2_lt_order Hord), L. }
  eapply costs_lift; [exact E'|]. kbind ltac:(apply costs_assert_equal). intros _ N2 k2 _ (-> & ->).
  kbind ltac:(apply costs_generator). intros _ N3 k3 _ (-> & ->). apply costs_ret. unfold bin_of_wires. rewrite map_length. lia.
Qed.

Lemma costs_select_pairs lsb : forall n items N, length items <= n -> costs N (select_pairs lsb items) (fun r _ k =>
  k + length r <= length items /\ (2 * length r = length items \/ 2 * length r = S (length items))).
Proof.
  induction n as [|n IH]; intros items N L.
  - destruct items; [|cbn in L; lia]. apply costs_ret. cbn. lia.
  - destruct items as [|l [|r rest]]; [apply costs_ret; cbn; lia|apply costs_ret; cbn; lia|]. cbn [select_pairs length] in *.
    kbind ltac:(apply costs_selection). intros s N1 k1 _ K1. kbind ltac:(apply IH; lia). intros ss N2 k2 _ K2. apply costs_ret. cbn [length]. lia.
Qed.
Lemma costs_rab : forall bits items N, index_fit (length items) (length bits) -> costs N (random_access_binary items bits) (fun _ _ k => S k <= length items).
Proof.
  induction bits as [|lsb bits IH]; intros items N (H1 & H2 & H3).
  - destruct items as [|x [|y items]]; cbn in H1, H2; [lia| |lia]. cbn. apply (costs_ret N x). lia.
  - cbn [length] in *. assert (L2 : 2 <= length items).
    { destruct H3 as [H3|H3]; [lia|]. replace (S (length bits) - 1) with (length bits) in H3 by lia. pose proof (Nat.pow_nonzero 2 (length bits)). lia. }
    destruct items as [|x [|y items]]; cbn [length] in *; try lia.
    cbn [random_access_binary]. kbind ltac:(apply (costs_select_pairs lsb (length (x :: y :: items))); reflexivity).
    cbn [length]. intros ps N1 k1 _ [K1 E]. eapply costs_weaken; [apply IH|].
    + replace (S (length bits) - 1) with (length bits) in H3 by lia. rewrite Nat.pow_succ_r' in H2. unfold index_fit.
      destruct (length bits) as [|m] eqn:Eb; [cbn in *; lia|]. replace (S m - 1) with m by lia. rewrite Nat.pow_succ_r' in *. lia.
    + cbv beta. intros a N2 k2 _ H. lia.
Qed.
Lemma costs_random_access N items i : 0 < N -> 0 < length items -> index_bits (length items) < max_bits ->
  costs N (random_access items i) (fun _ _ k => k <= index_bits (length items) + length items).
Proof using Hord.
  intros LN L1 L2. unfold random_access. kbind ltac:(apply (costs_split_bounded Hord); [exact LN|exact L2]).
  intros bits N1 k1 _ [Lb ->]. eapply costs_weaken; [apply costs_rab; rewrite Lb; apply index_bits_fit; exact L1|]. cbv beta. intros a N2 k2 _ H. lia.
Qed.

(** Powers: the first product is with the constant one. *)
Lemma costs_exp_le N x p : 0 < N -> costs N (exponentiation x p) (fun _ _ k => k <= zbits p - 1 + (ones p (zbits p) - 1)).
Proof.
  intros LN. unfold exponentiation, el_bits. eapply costs_bind.
  - apply (costs_bfold_seq _ (fun i st _ k => k <= i - 1 + (ones p i - 1) /\ (ones p i = 0 -> fst st = e_one))) with (k := 0) (n := zbits p);
      [cbn; split; [lia|reflexivity]|].
    intros i st N' c Hi LN' (I0 & I1).
    eapply costs_bind with (Q := fun _ _ k => k <= (if i =? 0 then 0 else 1)).
    { destruct (i =? 0); [apply costs_ret; lia|]. apply costs_product_le. }
    cbv beta. intros sq N1 k1 _ H1. eapply costs_bind with (Q := fun r _ k => (Z.testbit p (Z.of_nat i) = false -> r = fst st) /\
        k <= (if Z.testbit p (Z.of_nat i) then if ones p i =? 0 then 0 else 1 else 0)).
    { unfold el_bit, zbit. destruct (Z.testbit p (Z.of_nat i)); [|apply costs_ret; auto].
      destruct (Nat.eqb_spec (ones p i) 0) as [Z|Z].
      - rewrite (I1 Z). unfold product. replace (e_as_constant e_one) with (Some 1%Z).
        + apply costs_ret. split; [discriminate|lia].
        + unfold e_one, e_const, e_as_constant, fone. cbn. reflexivity.
      - eapply costs_weaken; [apply costs_product_le|]. cbv beta. intros r N2 k2 _ H. split; [discriminate|exact H]. }
    cbv beta. intros pr N2 k2 _ (P & H2). apply costs_ret. cbn [ones fst].
    destruct (Z.testbit p (Z.of_nat i)) eqn:Bt; destruct (Nat.eqb_spec (ones p i) 0) as [Z|Z]; destruct (Nat.eqb_spec i 0) as [->|]; cbn [ones Nat.add] in *;
      (split; [lia|intro; try lia; rewrite P by reflexivity; apply I1; lia]).
  - cbv beta. intros a N1 k1 _ (H & _). apply costs_ret. cbn [Nat.add] in H. lia.
Qed.
End Words.

(** Sums, array access and powers. *)
Theorem C84_words : forall (F : Field), prime order ->
  (forall ts, sum_width ts < max_bits -> adds_exactly (binary_summation ts) (sum_width ts + 1)) /\
  (forall items i, 0 < length items -> Nat.log2_up (length items) < max_bits ->
     takes_at_most (random_access items i) (Nat.log2_up (length items) + length items)) /\
  (forall x p, takes_at_most (exponentiation x p) (zbits p - 1 + (ones p (zbits p) - 1))).
Proof.
  intros F Hp. split; [|split].
  - intros ts. unfold sum_width. rewrite <- max_sum_width. intro L. apply costs_adds. intros N LN.
    eapply costs_weaken; [apply (costs_binary_summation Hp); assumption|]. cbv beta. tauto.
  - intros items i L1. assert (E : index_bits (length items) = Nat.log2_up (length items)).
    { destruct (index_bits_fit (length items) L1) as (_ & A & B). set (n := index_bits (length items)) in *.
      assert (Nat.log2_up (length items) <= n) by (apply Nat.log2_up_le_pow2; assumption).
      destruct B as [->|B]; [lia|]. assert (n - 1 < Nat.log2_up (length items)) by (apply Nat.log2_up_lt_pow2; lia). lia. }
    rewrite <- E. intro L2. apply takes_costs. intros N LN. apply (costs_random_access Hp); assumption.
  - intros x p. apply takes_costs. intros N LN. apply costs_exp_le. exact LN.
Qed.
Print Assumptions C84_words.

(** * Block ciphers and hashes *)
Section Hashes.
Context {F : Field} (Hp : prime order).
Let Hord : (2 <= order)%Z := prime_ge2 Hp.

Lemma ones_one p : (0 < p)%Z -> 0 < ones p (zbits p).
Proof.
  intro H. destruct (Nat.eq_dec (ones p (zbits p)) 0) as [E|]; [|lia]. exfalso.
  assert (B : Z.testbit p (Z.log2 p) = true) by (apply Z.bit_log2; exact H).
  pose proof (ones_pos p _ E (Z.to_nat (Z.log2 p))) as Q. rewrite Z2Nat.id in Q by apply Z.log2_nonneg. rewrite Q in B; [discriminate|].
  unfold zbits. destruct (Z.leb_spec p 0); lia.
Qed.

(** The number of constraints of the power [p]. *)
Definition power_cost (p : Z) : nat := zbits p - 1 + (ones p (zbits p) - 1).

(** At most [n] constraints; exactly [n] on an expression that is not constant, and then the result is not constant either. *)
Definition lane (f : expr -> B expr) (n : nat) : Prop := forall x N, 0 < N ->
  costs N (f x) (fun r _ k => k <= n /\ (varies x -> varies r /\ k = n)).

Lemma costs_both {A} N (m : B A) (Q R : A -> nat -> nat -> Prop) : costs N m Q -> costs N m R -> costs N m (fun r N' k => Q r N' k /\ R r N' k).
Proof.
  intros H1 H2 b Hb. destruct (H1 b Hb) as (r & b' & k & E & L & K & HQ). destruct (H2 b Hb) as (r2 & b2 & k2 & E2 & L2 & K2 & HR).
  rewrite E in E2. inversion E2; subst r2 b2. replace k2 with k in HR by lia. exists r, b', k. auto.
Qed.
Lemma costs_when {A} N (P : Prop) (m : B A) (Q R : A -> nat -> nat -> Prop) : costs N m Q -> (P -> costs N m R) -> costs N m (fun r N' k => Q r N' k /\ (P -> R r N' k)).
Proof.
  intros H1 H2 b Hb. destruct (H1 b Hb) as (r & b' & k & E & L & K & HQ). exists r, b', k. split; [exact E|]. split; [exact L|]. split; [exact K|].
  split; [exact HQ|]. intro HP. destruct (H2 HP b Hb) as (r2 & b2 & k2 & E2 & L2 & K2 & HR).
  rewrite E in E2. inversion E2; subst r2 b2. replace k2 with k in HR by lia. exact HR.
Qed.

Lemma lane_power p : (0 < p)%Z -> lane (fun x => exponentiation x p) (power_cost p).
Proof using Hord.
  intros H x N LN. eapply costs_weaken; [apply costs_when with (P := varies x); [apply (costs_exp_le N x p LN)|intro V; apply (costs_exponentiation_result Hord N x p LN V)]|].
  cbv beta. intros r N' k _ [A B]. split; [exact A|]. intro V. destruct (B V) as [C D]. split; [apply D, ones_one, H|exact C].
Qed.

(** The root is a new wire: always exact. *)
Lemma costs_root N n x : 0 < N -> (2 <= n < order)%Z -> Z.gcd (order - 1) n = 1%Z ->
  costs N (monomial_inverse n x) (fun r _ k => r = e_wire N /\ k = power_cost n + 1).
Proof using Hp Hord.
  intros LN Hn Hg. unfold monomial_inverse. kbind ltac:(apply costs_wire). intros w N1 c1 _ (-> & -> & ->).
  kbind ltac:(apply (costs_exponentiation Hord); [lia|apply (varies_wire Hord); unfold ONE; lia]). intros e N2 c2 L2 ->.
  kbind ltac:(apply costs_assert_equal). intros _ N3 c3 _ (-> & ->).
  destruct (monomial_exponent_ok Hp n Hn Hg) as (q & j & E & _). eapply costs_lift; [exact E|].
  kbind ltac:(apply costs_generator). intros _ N4 c4 _ (-> & ->). apply costs_ret. split; [reflexivity|]. unfold power_cost. lia.
Qed.
Lemma lane_root n : (2 <= n < order)%Z -> Z.gcd (order - 1) n = 1%Z -> lane (monomial_inverse n) (power_cost n + 1).
Proof using Hp Hord.
  intros Hn Hg x N LN. eapply costs_weaken; [apply costs_root; assumption|]. cbv beta. intros r N' k _ (-> & ->). split; [lia|]. intros _. split; [|reflexivity].
  apply (varies_wire Hord). unfold ONE. lia.
Qed.
Lemma lane_inverse : lane inverse_or_zero 3.
Proof using Hord.
  intros x N LN. eapply costs_weaken; [apply costs_inverse_or_zero|]. cbv beta. intros r N' k _ [-> ->]. split; [lia|]. intros _. split; [|reflexivity].
  apply (varies_wire Hord). unfold ONE. lia.
Qed.

Lemma costs_lanes f n : lane f n -> forall l N, 0 < N -> costs N (bmap f l) (fun r _ k => length r = length l /\ k <= n * length l /\
  (Forall varies l -> Forall varies r /\ k = n * length l)).
Proof.
  intros H. induction l as [|a l IH]; intros N HN; cbn [bmap length]; [apply costs_ret; cbn [length]; repeat split; auto; lia|].
  kbind ltac:(apply H; exact HN). intros c N1 k1 L1 [K1 V1].
  kbind ltac:(apply IH; lia). intros cs N2 k2 L2 (E & K2 & V2). apply costs_ret. cbn [length].
  split; [lia|]. split; [lia|]. intro V. inversion V; subst. destruct (V1 H2), (V2 H3). split; [constructor; assumption|lia].
Qed.
Lemma costs_first f n : lane f n -> forall l N, 0 < N -> l <> [] -> costs N (update_first f l) (fun r _ k => length r = length l /\ k <= n /\
  (Forall varies l -> Forall varies r /\ k = n)).
Proof.
  intros H l N HN L. destruct l as [|a l]; [congruence|]. cbn [update_first]. kbind ltac:(apply H; exact HN). intros c N1 k1 L1 [K1 V1]. apply costs_ret. cbn [length].
  split; [lia|]. split; [lia|]. intro V. inversion V; subst. destruct (V1 H2). split; [constructor; assumption|lia].
Qed.

Lemma matrix_mul_length m l : length m = length l -> length (matrix_mul m l) = length l.
Proof. intro E. unfold matrix_mul. rewrite map_length, combine_length. lia. Qed.
Lemma varies_row x row : (row_sum row mod order <> 0)%Z -> varies x -> varies (fold_left (fun sum c => e_add sum (e_scale x c)) row e_zero).
Proof using Hp Hord.
  intros H (w & w' & E & D). exists w, w'. split; [exact E|]. rewrite !(ev_row Hp). intro Q. apply D.
  apply (cancel_r Hp _ _ (row_sum row)); try apply (ev_infield Hord); assumption.
Qed.
Lemma varies_matrix m l : rows_usable m -> Forall varies l -> Forall varies (matrix_mul m l).
Proof using Hp Hord.
  intros H. revert l. induction H as [|row m Hr Hm IH]; intros l V; [constructor|]. destruct l as [|x l]; [constructor|]. inversion V; subst.
  unfold matrix_mul. cbn [combine map fst snd]. constructor; [apply varies_row; assumption|apply IH; assumption].
Qed.

(** ** Poseidon *)
Definition sbox_cost (sb : poseidon_sbox) : nat := match sb with Exponentiation3 => 2 | Exponentiation5 => 3 | Inverse => 3 end.
Lemma lane_sbox sb : sbox_available sb -> lane (sbox_permute sb) (sbox_cost sb).
Proof using Hp Hord.
  intros A x N LN. unfold sbox_permute. destruct sb; cbn [sbox_available sbox_to_permutation] in *.
  - destruct A as [A G]. eapply costs_lift; [rewrite el_from_ok by (unfold infield; lia); cbn [obind]; rewrite (monomial_new_ok Hp) by (unfold infield; lia); rewrite G; reflexivity|].
    apply (lane_power 3); [lia|exact LN].
  - destruct A as [A G]. eapply costs_lift; [rewrite el_from_ok by (unfold infield; lia); cbn [obind]; rewrite (monomial_new_ok Hp) by (unfold infield; lia); rewrite G; reflexivity|].
    apply (lane_power 5); [lia|exact LN].
  - eapply costs_lift; [reflexivity|]. apply lane_inverse. exact LN.
Qed.

(** Full rounds among the first [i]. *)
Definition fulls (full part i : nat) : nat := Nat.min i (full / 2) + (i - (part + full / 2)).
Lemma fulls_S full part i : fulls full part (S i) = fulls full part i + (if full_round full part i then 1 else 0).
Proof.
  unfold fulls, full_round. destruct (Nat.ltb_spec i (full / 2)); destruct (Nat.leb_spec (part + full / 2) i); cbn [orb]; lia.
Qed.
Lemma fulls_le full part i : fulls full part i <= i.
Proof. unfold fulls. lia. Qed.

Lemma costs_poseidon N p xs : 0 < N -> poseidon_ok p -> length xs = pos_width p -> costs N (poseidon_permute p xs) (fun r _ k =>
  length r = pos_width p /\ k <= sbox_cost (pos_sbox p) * (pos_full p * pos_width p + pos_partial p) /\
  (rows_usable (pos_mds p) -> Forall varies xs -> Forall varies r /\ k = sbox_cost (pos_sbox p) * (pos_full p * pos_width p + pos_partial p))).
Proof using Hp Hord.
  intros LN (W & Lm & Ev & A) Lx. unfold poseidon_permute. eapply costs_lift; [unfold oassert; rewrite Lx, Nat.eqb_refl; reflexivity|].
  eapply costs_lift; [unfold oassert; rewrite Ev; reflexivity|].
  set (c := sbox_cost (pos_sbox p)). set (w := pos_width p) in *.
  eapply costs_weaken; [apply (costs_bfold_seq _ (fun i st _ k => length st = w /\ 
     k <= c * (fulls (pos_full p) (pos_partial p) i * w + (i - fulls (pos_full p) (pos_partial p) i)) /\
     (rows_usable (pos_mds p) -> Forall varies xs -> Forall varies st /\
     k = c * (fulls (pos_full p) (pos_partial p) i * w + (i - fulls (pos_full p) (pos_partial p) i))))) |].
  - split; [exact Lx|]. unfold fulls. cbn [Nat.min Nat.sub Nat.add]. split; [lia|]. intros _ V. split; [exact V|lia].
  - intros i st N' k Hi LN' (Ls & K & V). rewrite (full_round_eq p i Ev). set (d := if full_round (pos_full p) (pos_partial p) i then w else 1).
    eapply costs_bind with (Q := fun r _ k2 => length r = w /\ k2 <= c * d /\ (Forall varies st -> Forall varies r /\ k2 = c * d)).
    + unfold d. destruct (full_round _ _ i).
      * rewrite <- Ls. apply (costs_lanes _ c); [apply lane_sbox; exact A|lia].
      * rewrite <- Ls, Nat.mul_1_r. apply (costs_first _ c); [apply lane_sbox; exact A|lia|]. intros ->. cbn in Ls. lia.
    + cbv beta. intros r N2 k2 _ (Lr & K2 & V2). apply costs_ret. rewrite matrix_mul_length by lia. split; [exact Lr|].
      assert (Ec : c * (fulls (pos_full p) (pos_partial p) (S i) * w + (S i - fulls (pos_full p) (pos_partial p) (S i))) =
        c * (fulls (pos_full p) (pos_partial p) i * w + (i - fulls (pos_full p) (pos_partial p) i)) + c * d).
      { rewrite fulls_S. pose proof (fulls_le (pos_full p) (pos_partial p) i). unfold d. destruct (full_round _ _ i); rewrite <- Nat.mul_add_distr_l; f_equal; nia. }
      rewrite Ec. split; [lia|]. intros U Vx. destruct (V U Vx) as [Vs Es]. destruct (V2 Vs) as [Vr Er]. split; [apply varies_matrix; assumption|lia].
  - cbv beta. intros r N' k _ H. cbn [Nat.add] in H.
    assert (Ef : fulls (pos_full p) (pos_partial p) (pos_full p + pos_partial p) = pos_full p).
    { unfold fulls. pose proof (Nat.div_mod (pos_full p) 2 ltac:(lia)) as D. rewrite Ev in D. lia. }
    rewrite Ef in H. replace (pos_full p + pos_partial p - pos_full p) with (pos_partial p) in H by lia. exact H.
Qed.

(** ** Rescue *)
Lemma costs_rescue N r xs : 0 < N -> (2 <= res_alpha r < order)%Z -> Z.gcd (order - 1) (res_alpha r) = 1%Z -> length (res_mds r) = length xs ->
  costs N (rescue_permute r xs) (fun ys _ k => length ys = length xs /\
    k <= res_rounds r * (length xs * (2 * power_cost (res_alpha r) + 1)) /\
    (rows_usable (res_mds r) -> Forall varies xs -> Forall varies ys /\ k = res_rounds r * (length xs * (2 * power_cost (res_alpha r) + 1)))).
Proof using Hp Hord.
  intros LN Ha Hg Lm. unfold rescue_permute. set (c := power_cost (res_alpha r)). set (w := length xs) in *.
  assert (E : monomial_new (res_alpha r) = Ok (res_alpha r)).
  { rewrite (monomial_new_ok Hp) by (unfold infield; lia). rewrite Hg. reflexivity. }
  assert (L1 : lane (rescue_pi1 r) c).
  { intros x N0 L0. unfold rescue_pi1. eapply costs_lift; [exact E|]. apply (lane_power (res_alpha r)); [lia|exact L0]. }
  assert (L2 : lane (rescue_pi2 r) (c + 1)).
  { intros x N0 L0. unfold rescue_pi2. eapply costs_lift; [exact E|]. apply (lane_root (res_alpha r)); assumption. }
  eapply costs_weaken; [apply (costs_bfold_seq _ (fun i st _ k => length st = w /\ k <= i * (w * (2 * c + 1)) /\
     (rows_usable (res_mds r) -> Forall varies xs -> Forall varies st /\ k = i * (w * (2 * c + 1)))))|].
  - split; [reflexivity|]. split; [lia|]. intros _ V. split; [exact V|lia].
  - intros i st N' k Hi LN' (Ls & K & V). kbind ltac:(apply (costs_lanes _ c L1); lia). intros c1 N1 k1 L3 (Lc1 & K1 & V1).
    kbind ltac:(apply (costs_lanes _ (c + 1) L2); lia). intros c2 N2 k2 L4 (Lc2 & K2 & V2). apply costs_ret.
    rewrite (matrix_mul_length (res_mds r) c1) in * by lia. rewrite matrix_mul_length by lia.
    split; [lia|]. split; [nia|]. intros U Vx. destruct (V U Vx) as [Vs Es]. destruct (V1 Vs) as [Vr Er]. destruct V2 as [Vr2 Er2]; [apply varies_matrix; assumption|].
    split; [apply varies_matrix; assumption|nia].
  - cbv beta. intros ys N' k _ H. cbn [Nat.add] in H. exact H.
Qed.

(** ** MiMC: the power is a new wire, so the next argument is not constant. *)
Lemma costs_cube N x : 0 < N -> varies x -> costs N (exponentiation x 3) (fun r N' k => r = e_wire (S N) /\ N' = S (S N) /\ k = 2).
Proof using Hord.
  intros LN V. unfold exponentiation. change (el_bits 3) with 2. cbn [seq bfold].
  eapply costs_bind with (Q := fun st N' k => fst st = e_wire (S N) /\ N' = S (S N) /\ k = 2).
  2: { cbv beta. intros st N1 k2 _ (E & -> & ->). apply costs_ret. rewrite E. repeat split; lia. }
  eapply costs_bind with (Q := fun st N' k => st = (e_scale x 1, x) /\ N' = N /\ k = 0).
  - cbn [Nat.eqb fst snd]. eapply costs_bind with (Q := fun r N' k => r = x /\ N' = N /\ k = 0); [apply costs_ret; auto|].
    cbv beta. intros sq N1 k1 _ (-> & -> & ->). change (el_bit 3 0) with true. cbv iota.
    eapply costs_bind with (Q := fun r N' k => r = e_scale x 1 /\ N' = N /\ k = 0).
    + unfold product. replace (e_as_constant e_one) with (Some 1%Z) by reflexivity. apply costs_ret; auto.
    + cbv beta. intros pr N1 k1 _ (-> & -> & ->). apply costs_ret. auto.
  - cbv beta. intros st N1 k1 _ (-> & -> & ->). cbn [fst snd].
    eapply costs_bind with (Q := fun st N' k => fst st = e_wire (S N) /\ N' = S (S N) /\ k = 2).
    + cbn [Nat.eqb]. kbind ltac:(apply costs_product). intros sq N1 k2 _ [H _]. destruct H as (-> & -> & ->); try (apply varies_nonconst; assumption).
      change (el_bit 3 1) with true. cbv iota. kbind ltac:(apply costs_product). intros pr N1 k2 _ [H _].
      destruct H as (-> & -> & ->); [apply varies_nonconst, (varies_scale_one Hord), V|apply as_constant_wire; unfold ONE; lia|].
      apply costs_ret. cbn [fst]. auto.
    + cbv beta. intros st N1 k2 _ (E & -> & ->). apply costs_ret. auto.
Qed.

Lemma varies_fresh N j e : 0 < N -> N <= j -> below N e -> varies (e_add (e_wire j) e).
Proof using Hord.
  intros LN L B. exists (unitw j), (unitw (S j)). split; [unfold unitw, ONE; destruct (Nat.eqb_spec 0 j), (Nat.eqb_spec 0 (S j)); lia|].
  rewrite !(ev_add Hord). fold (coef j e) (coef (S j) e) (coef j (e_wire j)) (coef (S j) (e_wire j)).
  rewrite !(coef_wire Hord), !(coef_below Hord N) by (assumption || lia). rewrite Nat.eqb_refl. destruct (Nat.eqb_spec j (S j)); [lia|].
  unfold fadd. rewrite !Z.add_0_r, Z.mod_0_l, Z.mod_small by lia. lia.
Qed.

Lemma costs_mimc_le cs key x N : 0 < N -> costs N (mimc_encrypt cs (monomial 3) key x) (fun _ _ k => k <= 2 * (length cs + 1)).
Proof.
  intro LN. unfold mimc_encrypt. cbn [permute monomial]. kbind ltac:(apply (costs_exp_le N _ 3 LN)). change (zbits 3 - 1 + (ones 3 (zbits 3) - 1)) with 2.
  intros c0 N1 k1 L1 K1. eapply costs_bind with (Q := fun _ _ k => k <= 2 * length cs).
  - assert (LN1 : 0 < N1) by lia. revert c0 N1 LN1 L1. clear k1 K1. induction cs as [|rc cs IH]; intros c0 N1 LN1 L1; cbn [bfold length]; [apply costs_ret; lia|].
    kbind ltac:(apply (costs_exp_le N1 _ 3 LN1)). change (zbits 3 - 1 + (ones 3 (zbits 3) - 1)) with 2. intros c1 N2 k2 L2 K2.
    eapply costs_weaken; [apply IH; lia|]. cbv beta. intros ? ? k3 _ K3. lia.
  - cbv beta. intros c N2 k2 _ K2. apply costs_ret. lia.
Qed.
Lemma costs_mimc cs key x N : 0 < N -> below N key -> varies (e_add x key) -> costs N (mimc_encrypt cs (monomial 3) key x) (fun _ _ k => k = 2 * (length cs + 1)).
Proof using Hord.
  intros LN B V. unfold mimc_encrypt. cbn [permute monomial]. kbind ltac:(apply (costs_cube N _ LN V)).
  intros c0 N1 k1 L1 (-> & -> & ->). eapply costs_bind with (Q := fun _ _ k => k = 2 * length cs).
  - set (N1 := S (S N)). assert (LN1 : N <= N1) by (unfold N1; lia). clearbody N1. clear L1. set (j := S N). assert (Lj : N <= j) by (unfold j; lia). clearbody j.
    revert j Lj N1 LN1. induction cs as [|rc cs IH]; intros j Lj N1 LN1; cbn [bfold length]; [apply costs_ret; lia|].
    kbind ltac:(apply (costs_cube N1); [lia|apply (varies_fresh N); [exact LN|exact Lj|apply over_add; [exact B|apply over_const; unfold ONE; lia]]]).
    intros c1 N2 k2 L2 (-> & -> & ->). eapply costs_weaken; [apply IH; lia|]. cbv beta. intros ? ? k3 _ K3. lia.
  - cbv beta. intros c N2 k2 _ K2. apply costs_ret. lia.
Qed.
Lemma costs_mimc_decrypt cs key x N : 0 < N -> (3 < order)%Z -> Z.gcd (order - 1) 3 = 1%Z ->
  costs N (mimc_decrypt cs (monomial 3) key x) (fun _ _ k => k = 3 * (length cs + 1)).
Proof using Hp Hord.
  intros LN L3 G. unfold mimc_decrypt. cbn [p_inverse monomial].
  assert (R : forall y N0, 0 < N0 -> costs N0 (monomial_inverse 3 y) (fun _ _ k => k = 3)).
  { intros y N0 L0. eapply costs_weaken; [apply (costs_root N0 3 y L0); [lia|exact G]|]. cbv beta. intros r N' k _ [_ ->]. reflexivity. }
  eapply costs_bind with (Q := fun _ _ k => k = 3 * length cs).
  - rewrite <- (rev_length cs). generalize (rev cs) as l. generalize (e_sub x key) as c. intros c l. revert c N LN. induction l as [|rc l IH]; intros c N LN; cbn [bfold length]; [apply costs_ret; lia|].
    eapply costs_bind with (Q := fun _ _ k => k = 3).
    + kbind ltac:(apply R; exact LN). intros r N1 k1 _ ->. apply costs_ret. reflexivity.
    + cbv beta. intros r N1 k1 L1 ->. eapply costs_weaken; [apply IH; lia|]. cbv beta. intros ? ? k3 _ K3. lia.
  - cbv beta. intros c N1 k1 L1 ->. kbind ltac:(apply R; lia). intros r N2 k2 _ ->. apply costs_ret. lia.
Qed.

(** ** Modes of operation *)
Lemma costs_bfold_le {S0 A} (f : S0 -> A -> B S0) n l : (forall s a N, 0 < N -> costs N (f s a) (fun _ _ k => k <= n)) ->
  forall s N, 0 < N -> costs N (bfold f l s) (fun _ _ k => k <= n * length l).
Proof.
  intro H. induction l as [|a l IH]; intros s N LN; cbn [bfold length]; [apply costs_ret; lia|].
  kbind ltac:(apply H; exact LN). intros s1 N1 k1 L1 K1. eapply costs_weaken; [apply IH; lia|]. cbv beta. intros ? ? k2 _ K2. lia.
Qed.

Section Sponge.
Variables (s : sponge) (n : nat).
Hypothesis Hperm : forall xs N, 0 < N -> length xs = bitrate s + capacity s ->
  costs N (mp_permute (sp_perm s) xs) (fun ys _ k => length ys = bitrate s + capacity s /\ k <= n).

Lemma costs_sponge_step i c N : 0 < N -> length i = bitrate s -> length c = capacity s ->
  costs N (sponge_step s i c) (fun r _ k => (length (fst r) = bitrate s /\ length (snd r) = capacity s) /\ k <= n).
Proof using Hperm.
  intros LN Li Lc. unfold sponge_step. cbv zeta. assert (L : length (i ++ c) = bitrate s + capacity s) by (rewrite app_length; lia).
  kbind ltac:(apply Hperm; [exact LN|exact L]). intros ys N1 k1 L1 [Ly K].
  eapply costs_lift; [unfold oassert; rewrite L, Ly, Nat.eqb_refl; reflexivity|].
  eapply costs_lift; [unfold oassert; rewrite Ly; destruct (Nat.leb_spec (bitrate s) (bitrate s + capacity s)); [reflexivity|lia]|].
  apply costs_ret. cbn [fst snd]. rewrite firstn_length, skipn_length. lia.
Qed.
Lemma sponge_add_length i ch : length ch <= length i -> exists r, sponge_add i ch = Ok r /\ length r = length i.
Proof.
  revert i. induction ch as [|c ch IH]; intros [|e i] L; cbn [sponge_add length] in *; try lia; eauto.
  destruct (IH i) as (r & -> & Lr); [lia|]. cbn [obind]. eexists. split; [reflexivity|]. cbn [length]. lia.
Qed.
Lemma costs_absorb cs : Forall (fun ch : list expr => length ch <= bitrate s) cs -> forall st N, 0 < N -> length (fst st) = bitrate s -> length (snd st) = capacity s ->
  costs N (bfold (fun (st : list expr * list expr) chunk => input' <- blift (sponge_add (fst st) chunk) ;; sponge_step s input' (snd st)) cs st)
    (fun r _ k => (length (fst r) = bitrate s /\ length (snd r) = capacity s) /\ k <= n * length cs).
Proof using Hperm.
  induction 1 as [|ch cs Hc Hcs IH]; intros st N LN Li Lc; cbn [bfold length]; [apply costs_ret; lia|].
  eapply costs_bind with (Q := fun r _ k => (length (fst r) = bitrate s /\ length (snd r) = capacity s) /\ k <= n).
  - destruct (sponge_add_length (fst st) ch) as (r & E & Lr); [lia|]. eapply costs_lift; [exact E|]. apply costs_sponge_step; lia.
  - cbv beta. intros st1 N1 k1 L1 [[A B] K1]. eapply costs_weaken; [apply IH; lia|]. cbv beta. intros ? ? k2 _ [C K2]. split; [exact C|lia].
Qed.
Lemma ceil_div_sub o r : 0 < r -> r < o -> ceil_div o r = S (ceil_div (o - r) r).
Proof.
  intros R L. unfold ceil_div. replace (o + r - 1) with ((o - r + r - 1) + 1 * r) by lia. rewrite Nat.div_add by lia. lia.
Qed.
Lemma costs_squeeze : 0 < bitrate s -> forall fuel i c out o N, 0 < N -> length i = bitrate s -> length c = capacity s -> o <= length out + fuel ->
  costs N (sponge_squeeze fuel s i c out o) (fun _ _ k => k <= n * ceil_div (o - length out) (bitrate s)).
Proof using Hperm.
  intro R. induction fuel as [|fuel IH]; intros i c out o N LN Li Lc L; cbn [sponge_squeeze]; destruct (Nat.ltb_spec (length out) o); try lia;
    try (apply costs_ret; lia).
  kbind ltac:(apply costs_sponge_step; [exact LN|exact Li|exact Lc]). intros [i1 c1] N1 k1 L1 [[A B] K1]. cbn [fst snd] in *.
  eapply costs_weaken; [apply IH; rewrite ?app_length; lia|]. cbv beta. intros r N2 k2 _ K2. rewrite app_length, A in K2.
  enough (ceil_div (o - length out) (bitrate s) = S (ceil_div (o - (length out + bitrate s)) (bitrate s))) as -> by lia.
  destruct (le_lt_dec (o - length out) (bitrate s)).
  - replace (o - (length out + bitrate s)) with 0 by lia. unfold ceil_div. rewrite (Nat.div_small (0 + bitrate s - 1)) by lia.
    replace (o - length out + bitrate s - 1) with ((o - length out - 1) + 1 * bitrate s) by lia. rewrite Nat.div_add, Nat.div_small by lia. reflexivity.
  - rewrite ceil_div_sub by lia. f_equal. f_equal. lia.
Qed.
Lemma costs_sponge xs o N : 0 < N -> 0 < bitrate s ->
  costs N (sponge_evaluate s xs o) (fun r _ k => k <= n * (ceil_div (length xs) (bitrate s) + ceil_div (o - bitrate s) (bitrate s))).
Proof using Hperm.
  intros LN R. unfold sponge_evaluate. eapply costs_lift; [unfold chunks; destruct (Nat.eqb_spec (bitrate s) 0); [lia|reflexivity]|].
  kbind ltac:(apply costs_absorb; [|exact LN|cbn [fst]; apply repeat_length|cbn [snd]; apply repeat_length]).
  { eapply Forall_impl; [|apply (chunks_fuel_Forall (fun _ => True)); apply Forall_forall; auto]. cbv beta. tauto. }
  rewrite chunks_fuel_length by (assumption || lia). intros [i c] N1 k1 L1 [[A B] K1]. cbn [fst snd] in *.
  kbind ltac:(apply costs_squeeze; [exact R|lia|exact A|exact B|lia]). intros r N2 k2 _ K2. apply costs_ret. rewrite A in K2. lia.
Qed.
End Sponge.
End Hashes.

(** MiMC: two constraints for each of the [length cs + 1] rounds; decryption three. *)
Theorem C84_mimc : forall (F : Field), prime order -> forall cs c, mimc_new cs = Ok c ->
  (forall key x, takes_at_most (encrypt c key x) (2 * (length cs + 1))) /\
  (forall key x b, 0 < next b -> below (next b) key -> not_constant (e_add x key) ->
     exists r b', encrypt c key x b = Ok (r, b') /\ length (constraints b') = length (constraints b) + 2 * (length cs + 1)) /\
  (forall key x, adds_exactly (decrypt c key x) (3 * (length cs + 1))).
Proof.
  intros F Hp cs c E. apply (mimc_new_inv Hp) in E. destruct E as (L & G & ->). cbn [encrypt decrypt]. split; [|split].
  - intros key x. apply takes_costs. intros N LN. apply costs_mimc_le. exact LN.
  - intros key x b LN B V. destruct (costs_mimc Hp cs key x (next b) LN B V b eq_refl) as (r & b' & k & Q & _ & K & ->). eauto.
  - intros key x. apply costs_adds. intros N LN. apply (costs_mimc_decrypt Hp); assumption.
Qed.
Print Assumptions C84_mimc.

(** Modes of operation, for any cipher, compression or permutation: so many calls, and one selection for each level of a tree. *)
Theorem C84_modes : forall (F : Field) n,
  (forall c, (forall k x, takes_at_most (encrypt c k x) n) -> forall x y, takes_at_most (davies_meyer c x y) n /\ takes_at_most (miyaguchi_preneel c x y) n) /\
  (forall compress, (forall x y, takes_at_most (compress x y) n) ->
     (forall iv blocks, (Z.of_nat (length blocks) < order)%Z -> takes_at_most (merkle_damgard iv compress blocks) (n * (length blocks + 1))) /\
     (forall leaf path, length (prefix path) = length (siblings path) ->
        takes_at_most (merkle_tree_root compress leaf path) ((n + 1) * length (siblings path)) /\
        forall root, takes_at_most (assert_merkle_tree_membership compress leaf root path) ((n + 1) * length (siblings path) + 1))).
Proof.
  intros F n. split.
  - intros c H x y. split; apply takes_costs; intros N LN; [unfold davies_meyer|unfold miyaguchi_preneel];
      (kbind ltac:(apply (proj1 (takes_costs _ _) (H _ _)); exact LN); intros r N1 k1 _ K; apply costs_ret; lia).
  - intros compress H. assert (H' : forall x y N, 0 < N -> costs N (compress x y) (fun _ _ k => k <= n)).
    { intros x y. apply takes_costs. apply H. } split.
    + intros iv blocks L. apply takes_costs. intros N LN. unfold merkle_damgard.
      kbind ltac:(apply (costs_bfold_le _ n); [intros; apply H'; assumption|exact LN]). intros cur N1 k1 L1 K1.
      eapply costs_lift; [unfold e_from_uint; rewrite el_from_ok by (unfold infield; lia); reflexivity|].
      eapply costs_weaken; [apply H'; lia|]. cbv beta. intros ? ? k2 _ K2. lia.
    + intros leaf path E.
      assert (R : forall N, 0 < N -> costs N (merkle_tree_root compress leaf path) (fun _ _ k => k <= (n + 1) * length (siblings path))).
      { intros N LN. unfold merkle_tree_root. eapply costs_weaken; [apply (costs_bfold_le _ (n + 1)); [|exact LN]|].
        - intros st bs N1 L1. unfold merkle_tree_step. kbind ltac:(apply costs_selection). intros l N2 k2 L2 K2.
          eapply costs_weaken; [apply H'; lia|]. cbv beta. intros ? ? k3 _ K3. lia.
        - cbv beta. intros r N1 k _ K. rewrite combine_length in K. replace (Nat.min (length (prefix path)) (length (siblings path))) with (length (siblings path)) in K by lia. exact K. }
      split; [apply takes_costs; exact R|]. intro root. apply takes_costs. intros N LN. unfold assert_merkle_tree_membership.
      kbind ltac:(apply R; exact LN). intros r N1 k1 L1 K1. eapply costs_weaken; [apply costs_assert_equal|]. cbv beta. intros ? ? k2 _ [_ ->]. lia.
Qed.
Print Assumptions C84_modes.

(** Poseidon: one S-box for each lane in a full round, one in a partial round; 2 constraints for the cube, 3 for the fifth power and for the inverse. *)
Definition sbox_constraints (sb : poseidon_sbox) : nat := match sb with Exponentiation3 => 2 | Exponentiation5 => 3 | Inverse => 3 end.
Theorem C84_poseidon : forall (F : Field), prime order -> forall p, poseidon_ok p -> forall xs, length xs = pos_width p ->
  let n := sbox_constraints (pos_sbox p) * (pos_full p * pos_width p + pos_partial p) in
  takes_at_most (poseidon_permute p xs) n /\
  (rows_usable (pos_mds p) -> Forall not_constant xs -> adds_exactly (poseidon_permute p xs) n).
Proof.
  intros F Hp p Hk xs L n. split.
  - apply takes_costs. intros N LN. eapply costs_weaken; [apply (costs_poseidon Hp); assumption|]. cbv beta. tauto.
  - intros U V. apply costs_adds. intros N LN. eapply costs_weaken; [apply (costs_poseidon Hp); assumption|]. cbv beta. intros r N' k _ (_ & _ & H). apply H; assumption.
Qed.
Print Assumptions C84_poseidon.

(** Rescue: in each round every lane is raised to the power alpha and then has its root taken, which costs one more. *)
Theorem C84_rescue : forall (F : Field), prime order -> forall r, (2 <= res_alpha r < order)%Z -> Z.gcd (order - 1) (res_alpha r) = 1%Z ->
  forall xs, length (res_mds r) = length xs ->
  let e := zbits (res_alpha r) - 1 + (ones (res_alpha r) (zbits (res_alpha r)) - 1) in
  let n := res_rounds r * (length xs * (2 * e + 1)) in
  takes_at_most (rescue_permute r xs) n /\
  (rows_usable (res_mds r) -> Forall not_constant xs -> adds_exactly (rescue_permute r xs) n).
Proof.
  intros F Hp r Ha Hg xs L e n. split.
  - apply takes_costs. intros N LN. eapply costs_weaken; [apply (costs_rescue Hp); assumption|]. cbv beta. tauto.
  - intros U V. apply costs_adds. intros N LN. eapply costs_weaken; [apply (costs_rescue Hp); assumption|]. cbv beta. intros ys N' k _ (_ & _ & H). apply H; assumption.
Qed.
Print Assumptions C84_rescue.

(** A sponge calls its permutation once for each block of the input and once for each further block of the output. *)
Definition blocks_of (len rate : nat) : nat := (len + rate - 1) / rate.
Theorem C84_sponge : forall (F : Field), prime order -> forall p, poseidon_ok p -> forall rate cap, 0 < rate -> rate + cap = pos_width p ->
  forall xs n, takes_at_most (sponge_evaluate (mkSponge (poseidon_mp p) rate cap) xs n)
    (sbox_constraints (pos_sbox p) * (pos_full p * pos_width p + pos_partial p) * (blocks_of (length xs) rate + blocks_of (n - rate) rate)).
Proof.
  intros F Hp p Hk rate cap R W xs n. apply takes_costs. intros N LN.
  eapply costs_weaken; [apply costs_sponge; [|exact LN|exact R]|].
  - cbn [sp_perm bitrate capacity poseidon_mp mp_permute]. intros ys N1 L1 Ly.
    eapply costs_weaken; [apply (costs_poseidon Hp); [exact L1|exact Hk|lia]|]. cbv beta. intros r N' k _ (A & K & _). split; [lia|exact K].
  - cbn [bitrate]. cbv beta. intros r N' k _ K. exact K.
Qed.
Print Assumptions C84_sponge.

(** * Sorting and signatures *)
Section Sort.
Context {F : Field} (Hp : prime order).
Let Hord : (2 <= order)%Z := prime_ge2 Hp.

Lemma costs_splits l : forall N, costs N (bmap split_allowing_ambiguity l) (fun r N' k =>
  r = map (fun i => map e_wire (seq (N + i * max_bits) max_bits)) (seq 0 (length l)) /\ N' = N + length l * max_bits /\ k = length l * (max_bits + 1)).
Proof using Hord.
  induction l as [|x l IH]; intro N; cbn [bmap length]; [apply costs_ret; repeat split; cbn; lia|].
  unfold split_allowing_ambiguity at 1. kbind ltac:(apply (costs_swrc_seq Hord); lia). intros r N1 k1 _ (-> & -> & ->).
  kbind ltac:(apply IH). intros rs N2 k2 _ (-> & -> & ->). apply costs_ret. split; [|split; lia].
  cbn [seq map]. rewrite Nat.add_0_r. f_equal. rewrite <- seq_shift, map_map. apply map_ext. intro i. f_equal. f_equal. lia.
Qed.

Lemma costs_le_disjoint a b N : 0 < N -> 0 < a -> 0 < b -> (a + max_bits <= b \/ b + max_bits <= a) -> 4 <= max_bits ->
  costs N (assert_le_binary (map e_wire (seq a max_bits)) (map e_wire (seq b max_bits))) (fun _ _ k => k = cmp_cost max_bits false + 1).
Proof using Hp Hord.
  intros LN La Lb D H4. unfold assert_le_binary, le_binary. kbind ltac:(apply (costs_cmp_fresh Hp) with (P := fun k => In k (seq b max_bits))).
  - exact LN.
  - apply seq_NoDup.
  - intro Hi. apply in_seq in Hi. unfold ONE in Hi. lia.
  - apply Forall_map, Forall_forall. intros k Hk. apply over_wire. exact Hk.
  - intros k Hk Hk'. apply in_seq in Hk. apply in_seq in Hk'. lia.
  - rewrite map_length, !seq_length. reflexivity.
  - rewrite seq_length. lia.
  - rewrite seq_length. apply chunk_room. lia.
  - intros e N1 k1 _ ->. rewrite seq_length. eapply costs_weaken; [apply costs_assert_true|]. cbv beta. intros ? ? ? _ [_ ->]. lia.
Qed.

(** Everything but the permutation network. *)
Definition order_cost (n : nat) : nat := (n - 1) * (max_bits + 1) + split_cost + (n - 1) * (cmp_cost max_bits false + 1).

Lemma costs_sort xs N : 0 < N -> 0 < length xs -> 4 <= max_bits -> costs N (sort_ascending xs) (fun r _ k => length r = length xs /\
  switches (length xs) + length xs + order_cost (length xs) <= k <= 2 * switches (length xs) + length xs + order_cost (length xs)).
Proof using Hp Hord.
  intros LN L1 H4. unfold sort_ascending. cbv zeta. set (n := length xs) in *.
  kbind ltac:(apply costs_wires). intros ws N1 k1 _ (-> & -> & ->).
  kbind ltac:(apply (costs_permutation_fuel (S n)); [rewrite map_length, seq_length; reflexivity|fold n; lia]). fold n. intros _ N2 k2 L2 K2.
  eapply costs_lift; [unfold osub; destruct (Nat.leb_spec 1 n); [reflexivity|lia]|].
  assert (Lo : length (map e_wire (seq N n)) = n) by (rewrite map_length, seq_length; reflexivity).
  kbind ltac:(apply costs_splits). intros first N3 k3 _ (-> & -> & ->). rewrite firstn_length, Lo. replace (Nat.min (n - 1) n) with (n - 1) by lia.
  eapply costs_lift; [apply (oindex_nth _ _ e_zero); lia|].
  kbind ltac:(apply (costs_split Hp); [apply Nat.add_pos_l; lia|exact H4]). intros last N4 k4 L4 (-> & L5 & ->).
  set (start := fun i => N2 + i * max_bits).
  assert (Eb : forall i, i < n -> oindex (map (fun i => map e_wire (seq (N2 + i * max_bits) max_bits)) (seq 0 (n - 1)) ++ [map e_wire (seq (N2 + (n - 1) * max_bits) max_bits)]) i =
      Ok (map e_wire (seq (start i) max_bits))).
  { intros i Hi. rewrite (oindex_nth _ i []) by (rewrite app_length, map_length, seq_length; cbn; lia). f_equal.
    destruct (Nat.eq_dec i (n - 1)) as [->|D].
    - rewrite app_nth2, map_length, seq_length, Nat.sub_diag by (rewrite map_length, seq_length; lia). reflexivity.
    - rewrite app_nth1 by (rewrite map_length, seq_length; lia).
      rewrite (nth_indep _ [] (map e_wire (seq (N2 + 0 * max_bits) max_bits))) by (rewrite map_length, seq_length; lia).
      rewrite (map_nth (fun i => map e_wire (seq (N2 + i * max_bits) max_bits))), seq_nth by lia. reflexivity. }
  kbind ltac:(apply (costs_bmap _ (cmp_cost max_bits false + 1)); [|lia]).
  { intros i N5 Hi LN5. apply in_seq in Hi. eapply costs_lift; [apply Eb; lia|]. eapply costs_lift; [apply Eb; lia|].
    apply costs_le_disjoint; unfold start; nia. }
  intros r N5 k5 L6 [_ ->]. rewrite seq_length. kbind ltac:(apply costs_generator). intros _ N6 k6 _ [-> ->]. apply costs_ret.
  split; [exact Lo|]. unfold order_cost. lia.
Qed.
End Sort.

(** Sorting n items: the permutation network (one boolean and at most one product for each switch, one equation for each item), a binary
    form of each item (that of the last one unique) and n-1 comparisons; [compare_constraints] is the documented estimate. *)
Theorem C84_sort : forall (F : Field), prime order -> 4 <= max_bits -> forall xs, 0 < length xs ->
  let n := length xs in
  let rest := (n - 1) * (max_bits + 1) + split_cost + (n - 1) * (cmp_cost max_bits false + 1) in
  adds_between (sort_ascending xs) (waksman_count n + n + rest) (2 * waksman_count n + n + rest) /\
  adds_between (sort_descending xs) (waksman_count n + n + rest) (2 * waksman_count n + n + rest).
Proof.
  intros F Hp H4 xs L n rest. rewrite waksman_switches. fold n.
  assert (G : forall b, 0 < next b -> exists r b', sort_ascending xs b = Ok (r, b') /\
    length (constraints b) + (switches n + n + rest) <= length (constraints b') <= length (constraints b) + (2 * switches n + n + rest)).
  { intros b Hb. destruct (costs_sort Hp xs (next b) Hb L H4 b eq_refl) as (r & b' & k & E & _ & K & _ & Q). exists r, b'. split; [exact E|].
    unfold order_cost in Q. fold n rest in Q. lia. }
  split; intros b Hb; destruct (G b Hb) as (r & b' & E & Q).
  - exists r, b'. split; [exact E|lia].
  - exists (rev r), b'. split; [unfold sort_descending, bbind; rewrite E; reflexivity|lia].
Qed.
Print Assumptions C84_sort.

(** Checking a signature: two scalar multiplications, one addition, one compression, one equation. *)
Theorem C84_schnorr : forall (F : Field), prime order -> (2 < order)%Z -> forall C g compress n, (forall x y, takes_at_most (compress x y) n) ->
  forall sig m pk, takes_at_most (schnorr_verify (mkCyclic (edwards_group C) (Ok g)) sig m pk compress) (22 * max_bits + n + 8).
Proof.
  intros F Hp H2 C g compress n Hc sig m pk. apply takes_costs. intros N LN. unfold schnorr_verify, generator_expression. cbn [cg_group generator_element obind].
  eapply costs_lift; [reflexivity|]. kbind ltac:(apply (costs_mul_scalar H2); [exact Hp|exact LN]). intros gs N1 k1 L1 K1.
  kbind ltac:(apply (costs_mul_scalar H2); [exact Hp|lia]). intros ye N2 k2 L2 K2. kbind ltac:(apply costs_ed_add_le). intros s N3 k3 L3 K3.
  kbind ltac:(apply (proj1 (takes_costs _ _) (Hc _ _)); lia). intros h N4 k4 L4 K4. eapply costs_weaken; [apply costs_assert_equal|].
  cbv beta. intros ? ? k5 _ [_ ->]. lia.
Qed.
Print Assumptions C84_schnorr.

(** Concrete numbers: Poseidon of width 3 with 8 full and 57 partial rounds of the fifth power, MiMC with 162 constants, and sorting 5 items of a
    field of 9 bits; the hypotheses hold for wires. *)
Example C84_example : forall (F : Field), (2 <= order)%Z ->
  Forall not_constant [e_wire 1; e_wire 2; e_wire 3] /\ sbox_constraints Exponentiation5 * (8 * 3 + 57) = 243 /\ 2 * (162 + 1) = 326 /\
  (let F := F257 in max_bits = 9 /\ split_cost = 24 /\ cmp_cost max_bits false = 15) /\ waksman_count 5 = 8 /\ blocks_of 7 2 + blocks_of (3 - 2) 2 = 5 /\
  Nat.log2_up 6 + 6 = 9 /\ sum_width [[e_wire 1; e_wire 2]; [e_wire 3]] = 3.
Proof.
  intros F H. split; [repeat constructor; apply (varies_wire H); discriminate|]. vm_compute. repeat split; reflexivity.
Qed.
