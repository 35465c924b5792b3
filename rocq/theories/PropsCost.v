(** C28: which comparisons and splits can be built, the chunk width, and the number of constraints. *)
From Coq Require Import ZArith List Bool Arith Lia Znumtheory.
From Verif Require Import Base FieldM FieldP ExprM BuilderM GadgetsM Spec ExprP BitsP SoundP CmpP CmpCompleteP GadgetCompleteP CostP Demo PropLib.
Import ListNotations.
Open Scope nat_scope.

(** The call succeeds on every builder and adds exactly [k] constraints (at most [k], at least [k]). *)
Definition adds_exactly {A} (m : B A) (k : nat) : Prop := forall b, 0 < next b ->
  exists r b', m b = Ok (r, b') /\ length (constraints b') = length (constraints b) + k.
Definition adds_at_most {A} (m : B A) (k : nat) : Prop := forall b, 0 < next b ->
  exists r b', m b = Ok (r, b') /\ length (constraints b') <= length (constraints b) + k.
Definition always_panics {A} (m : B A) : Prop := forall b, 0 < next b -> m b = Panic.

Lemma costs_adds {A} (m : B A) k : (forall N, 0 < N -> costs N m (fun _ _ c => c = k)) -> adds_exactly m k.
Proof. intros H b Hb. destruct (H _ Hb b eq_refl) as (r & b' & c & E & _ & L & ->). exists r, b'. auto. Qed.

(** Exact criterion: a comparison of binary words builds iff the words have the same non-zero length and the
    chosen chunk width is at least two below the bit length of the order. *)
Theorem C28_cmp_binary_builds : forall (F : Field), prime order -> forall x y less strict,
  length x = length y -> 0 < length x -> S (cmp_chunk_bits (length x)) < max_bits ->
  adds_at_most (cmp_binary x y less strict)
    (cmp_constraints (length x) (cmp_chunk_bits (length x)) + (if strict then 0 else 2)).
Proof.
  intros F Hp x y less strict L L0 Hc b Hb. destruct (cmp_chunk_bits_spec (length x)) as (Hc1 & _ & _).
  destruct (chunks_ok Hp (cmp_chunk_bits (length x)) x ltac:(lia)) as (xc & Ex).
  destruct (chunks_ok Hp (cmp_chunk_bits (length x)) y ltac:(lia)) as (yc & Ey).
  destruct (costs_cmp_binary Hp (next b) x y less strict xc yc Hb L L0 Hc Ex Ey b eq_refl) as (r & b' & k & E & _ & Lk & Hk & _).
  exists r, b'. split; [exact E|lia].
Qed.
Print Assumptions C28_cmp_binary_builds.

Theorem C28_cmp_binary_panics : forall (F : Field), prime order -> forall x y less strict,
  length x <> length y \/ length x = 0 \/ max_bits <= S (cmp_chunk_bits (length x)) ->
  always_panics (cmp_binary x y less strict).
Proof. intros F Hp x y less strict H. exact (panics_cmp_binary Hp x y less strict H). Qed.
Print Assumptions C28_cmp_binary_panics.

(** When that criterion is met: for words of exactly max_bits bits whenever max_bits >= 4, and for every
    length from 1 to max_bits whenever max_bits >= 7.
    Full statement (false for orders of 4 to 6 bits): for every length from 1 to max_bits with max_bits >= 4. *)
Theorem C28_no_panic_partial : forall (F : Field), prime order -> forall x y less strict,
  length x = length y ->
  (length x = max_bits /\ 4 <= max_bits) \/ (1 <= length x <= max_bits /\ 7 <= max_bits) ->
  forall b, 0 < next b -> exists r b', cmp_binary x y less strict b = Ok (r, b').
Proof.
  intros F Hp x y less strict L H b Hb.
  destruct (C28_cmp_binary_builds F Hp x y less strict L ltac:(lia) (chunk_room _ H) b Hb) as (r & b' & E & _). eauto.
Qed.
Print Assumptions C28_no_panic_partial.

Theorem C28_small_order_panics_refuted : forall (F : Field), prime order -> 4 <= max_bits <= 6 ->
  forall x y less strict, length x = max_bits - 1 -> always_panics (cmp_binary x y less strict).
Proof.
  intros F Hp Hm x y less strict L. apply (panics_cmp_binary Hp). right. right. rewrite L. clear L Hp.
  unfold cmp_chunk_bits. assert (max_bits = 4 \/ max_bits = 5 \/ max_bits = 6) as [E|[E|E]] by lia;
    rewrite E; apply Nat.leb_le; vm_compute; reflexivity.
Qed.
Print Assumptions C28_small_order_panics_refuted.

(** Splitting a field element and comparing two of them: never a panic from 4 bits on, always below. *)
Theorem C28_split_cost : forall (F : Field), prime order -> 4 <= max_bits -> forall x,
  adds_exactly (split x) (max_bits + 1 + (cmp_constraints max_bits (cmp_chunk_bits max_bits) + 1)).
Proof.
  intros F Hp H4 x. apply costs_adds. intros N HN. eapply costs_weaken; [apply (costs_split Hp N x HN H4)|].
  cbv beta. intros r N' k _ (_ & _ & ->). unfold split_cost, cmp_cost. lia.
Qed.
Print Assumptions C28_split_cost.

Theorem C28_cmp_cost : forall (F : Field), prime order -> 4 <= max_bits -> forall x y less strict,
  adds_exactly (cmp x y less strict)
    (2 * (max_bits + 1) + (cmp_constraints max_bits (cmp_chunk_bits max_bits) + 1)
     + (cmp_constraints max_bits (cmp_chunk_bits max_bits) + (if strict then 0 else 2))).
Proof.
  intros F Hp H4 x y less strict. apply costs_adds. intros N HN. eapply costs_weaken; [apply (costs_cmp Hp N x y less strict HN H4)|].
  cbv beta. intros r N' k _ ->. unfold split_cost, cmp_cost. destruct strict; lia.
Qed.
Print Assumptions C28_cmp_cost.

Theorem C28_split_small_order_panics : forall (F : Field), prime order -> max_bits <= 3 ->
  forall x, always_panics (split x).
Proof.
  intros F Hp Hm x. pose proof (prime_ge2 Hp) as Hord. pose proof (max_bits_pos Hord) as M0.
  unfold split. apply (panics_bind _ _ (fun r _ _ => length r = max_bits)).
  - intros N HN. eapply costs_weaken; [apply (costs_swrc_seq Hord); lia|]. cbv beta. intros r N' k _ (-> & _).
    rewrite map_length. apply seq_length.
  - intros r N k L. apply panics_first. unfold assert_lt_binary, lt_binary. apply panics_first.
    apply (panics_cmp_binary Hp). right. right. rewrite L. unfold cmp_chunk_bits.
    assert (max_bits = 1 \/ max_bits = 2 \/ max_bits = 3) as [E|[E|E]] by lia; rewrite E; apply Nat.leb_le; vm_compute; reflexivity.
Qed.
Print Assumptions C28_split_small_order_panics.

(** The chosen width is between 1 and max_bits - 1 (or 1), and no other candidate has a smaller estimate. *)
Theorem C28_chunk_width_optimal : forall (F : Field) len,
  1 <= cmp_chunk_bits len /\ (cmp_chunk_bits len = 1 \/ cmp_chunk_bits len < max_bits) /\
  forall c, 1 <= c < max_bits -> cmp_constraints len (cmp_chunk_bits len) <= cmp_constraints len c.
Proof. intros F len. exact (cmp_chunk_bits_spec len). Qed.
Print Assumptions C28_chunk_width_optimal.

(** Whenever a comparison builds, chunk differences and the sum of the masks cannot wrap. *)
Theorem C28_no_wrap : forall (F : Field), prime order -> forall len,
  S (cmp_chunk_bits len) < max_bits ->
  let c := cmp_chunk_bits len in
  (forall a b, (0 <= a < 2 ^ Z.of_nat c)%Z -> (0 <= b < 2 ^ Z.of_nat c)%Z ->
    (- order < a - b < order /\ 0 <= a - b + 2 ^ Z.of_nat c < order)%Z) /\
  (Z.of_nat ((len + c - 1) / c) < order)%Z.
Proof.
  intros F Hp len H c. pose proof (prime_ge2 Hp) as Hord.
  pose proof (pow2_lt_order Hord (S c) H) as P. rewrite pow2_S in P. split.
  - intros a b Ha Hb. lia.
  - pose proof (cmp_chunk_count len H) as Q. unfold ceil_div in Q. fold c in Q.
    assert (Z.of_nat c < 2 ^ Z.of_nat c)%Z by (apply Z.pow_gt_lin_r; lia). lia.
Qed.
Print Assumptions C28_no_wrap.

(** Number of constraints of a comparison: the estimate for a strict comparison, two more for a non-strict one,
    whenever no chunk difference is recognised as a (non-zero) constant; in particular when the bits of one
    operand are distinct wires that do not occur in the other. *)
Theorem C28_cmp_binary_cost : forall (F : Field), prime order -> forall ws y less strict (P : nat -> Prop),
  NoDup ws -> ~ In ONE ws -> Forall (over P) y -> (forall k, In k ws -> ~ P k) ->
  length ws = length y -> 0 < length ws -> S (cmp_chunk_bits (length ws)) < max_bits ->
  adds_exactly (cmp_binary (map e_wire ws) y less strict)
    (cmp_constraints (length ws) (cmp_chunk_bits (length ws)) + (if strict then 0 else 2)).
Proof.
  intros F Hp ws y less strict P ND NO HY HP L L0 Hc. apply costs_adds. intros N HN.
  exact (costs_cmp_fresh Hp N ws y less strict P HN ND NO HY HP L L0 Hc).
Qed.
Print Assumptions C28_cmp_binary_cost.

(** The estimate itself is not always the number added: a non-strict comparison adds two more, and comparing
    constants adds fewer. *)
Theorem C28_estimate_not_exact_refuted : forall (F : Field), prime order -> 4 <= max_bits ->
  exists x y : binexpr, length x = max_bits /\ length y = max_bits /\
  forall b, 0 < next b -> exists r b', le_binary x y b = Ok (r, b') /\
    length (constraints b') = length (constraints b) + cmp_constraints max_bits (cmp_chunk_bits max_bits) + 2.
Proof.
  intros F Hp H4. exists (map e_wire (seq 1 max_bits)), (bin_from order).
  split; [rewrite map_length; apply seq_length|]. split; [apply (order_bits_len Hp); lia|].
  intros b Hb. destruct (C28_cmp_binary_cost F Hp (seq 1 max_bits) (bin_from order) true false (fun k => k = ONE)) with (b := b)
    as (r & b' & E & L); auto.
  - apply seq_NoDup.
  - intro Hi. apply in_seq in Hi. unfold ONE in Hi. lia.
  - apply bin_from_over.
  - intros k Hk E. apply in_seq in Hk. unfold ONE in E. lia.
  - rewrite seq_length. symmetry. apply (order_bits_len Hp). lia.
  - rewrite seq_length. lia.
  - rewrite seq_length. apply chunk_room. lia.
  - rewrite seq_length in L. exists r, b'. split; [exact E|lia].
Qed.
Print Assumptions C28_estimate_not_exact_refuted.

Definition added {A} (m : B A) (b : builder) : option nat :=
  match m b with Ok (_, b') => Some (length (constraints b') - length (constraints b)) | _ => None end.

Example C28_example_split : let F : Field := F97 in
  max_bits = 7 /\ added (split (e_wire 1)) (mkB 2 [] []) = Some (8 + (12 + 1)) /\ cmp_constraints 7 (cmp_chunk_bits 7) = 12.
Proof. vm_compute. auto. Qed.
Example C28_example_cmp : let F : Field := F97 in
  added (cmp (e_wire 1) (e_wire 2) true true) (mkB 3 [] []) = Some (16 + 13 + 12) /\
  added (cmp (e_wire 1) (e_wire 2) true false) (mkB 3 [] []) = Some (16 + 13 + 14).
Proof. vm_compute. auto. Qed.
(** The panicking cases: 3-bit words over a 4-bit order; splitting over a 3-bit order. *)
Example C28_example_panic : let F : Field := F11 in
  added (lt_binary (map e_wire (seq 1 3)) (map e_wire (seq 4 3))) (mkB 7 [] []) = None /\
  added (lt_binary (map e_wire (seq 1 4)) (map e_wire (seq 5 4))) (mkB 9 [] []) = Some (3 * 2 + 2 + 2).
Proof. vm_compute. auto. Qed.
Example C28_example_panic7 : let F : Field := F7 in added (split (e_wire 1)) (mkB 2 [] []) = None.
Proof. vm_compute. auto. Qed.
(** Constants: fewer constraints than estimated. *)
Example C28_example_constants : let F : Field := F97 in
  added (lt_binary (bin_from 5%Z) (bin_from 6%Z)) (mkB 1 [] []) = Some 7.
Proof. vm_compute. auto. Qed.
