(** Properties C29-C37: binary arithmetic, bitwise operations, binary expression utilities, random access. *)
From Coq Require Import ZArith List Bool Arith Lia Znumtheory.
From Verif Require Import Base FieldM FieldP ExprM BuilderM GadgetsM Spec ExprP BitsP SoundP CmpP GadgetSoundP HonestP
  CompleteP CmpCompleteP GadgetCompleteP SatP ForgeP BinUtilP ArithP Demo PropLib.
Import ListNotations.
Open Scope Z_scope.

Notation wv vals := (ev (input_witness vals)).
Notation bv vals := (bin_val (input_witness vals)).

(** The integer sum of the values of the terms, and the longest term. *)
Definition total {F : Field} (w : witness) (ts : list binexpr) : Z := fold_right Z.add 0 (map (bin_val w) ts).
Definition longest (ts : list binexpr) : nat := list_max (map (@length _) ts).
(** The bits a sum of terms of these lengths can need: the number of bits of the sum of the 2^len - 1. *)
Definition sum_width (ts : list binexpr) : nat :=
  zbits (fold_right Z.add 0 (map (fun t : binexpr => 2 ^ Z.of_nat (length t) - 1) ts)).

(** * C29 sums *)
Theorem C29_summation_sound : forall (F : Field), prime order -> forall ts,
  sound_call (binary_summation ts) (fun w r => Forall (bin_ok w) ts ->
    bin_ok w r /\ bin_val w r = total w ts).
Proof.
  intros F Hp ts b r b' w E Hw Hs Ht.
  destruct (snd_binary_summation Hp w Hw ts Ht b r b' E Hs) as (_ & _ & Hb & Hv).
  split; [exact Hb|]. rewrite Hv. apply sum_vals_total.
Qed.
Print Assumptions C29_summation_sound.

Theorem C29_sum_sound : forall (F : Field), prime order -> forall x y,
  sound_call (binary_sum x y) (fun w r => bin_ok w x -> bin_ok w y -> bin_ok w r /\ bin_val w r = bin_val w x + bin_val w y).
Proof.
  intros F Hp x y b r b' w E Hw Hs Hx Hy. destruct (C29_summation_sound F Hp [x; y] b r b' w E Hw Hs) as [A B]; [auto|].
  split; [exact A|]. rewrite B. unfold total. cbn [map fold_right]. ring.
Qed.
Print Assumptions C29_sum_sound.

Theorem C29_ignoring_overflow_sound : forall (F : Field), prime order -> forall ts,
  sound_call (binary_summation_ignoring_overflow ts) (fun w r => Forall (bin_ok w) ts ->
    length r = longest ts /\ bin_ok w r /\ bin_val w r = total w ts mod 2 ^ Z.of_nat (longest ts)).
Proof.
  intros F Hp ts b r b' w E Hw Hs Ht.
  destruct (snd_bs_ignoring Hp w Hw ts Ht b r b' E Hs) as (L & Hb & Hv).
  rewrite max_len_longest in L, Hv. split; [exact L|]. split; [exact Hb|]. rewrite Hv, sum_vals_total. reflexivity.
Qed.
Print Assumptions C29_ignoring_overflow_sound.

Theorem C29_asserting_no_overflow_sound : forall (F : Field), prime order -> forall ts,
  sound_call (binary_summation_asserting_no_overflow ts) (fun w r => Forall (bin_ok w) ts ->
    length r = longest ts /\ bin_ok w r /\ bin_val w r = total w ts /\ total w ts < 2 ^ Z.of_nat (longest ts)).
Proof.
  intros F Hp ts b r b' w E Hw Hs Ht.
  destruct (snd_bs_asserting Hp w Hw ts Ht b r b' E Hs) as (L & Hb & Hv & Hl).
  rewrite max_len_longest in L, Hl. rewrite sum_vals_total in Hv, Hl. auto.
Qed.
Print Assumptions C29_asserting_no_overflow_sound.

Theorem C29_summation_complete : forall (F : Field), prime order -> forall vals ts, (sum_width ts < max_bits)%nat ->
  good_inputs vals -> Forall (on_inputs_all vals) ts -> Forall (bin_ok (input_witness vals)) ts ->
  runs vals (binary_summation ts) (fun r v => bin_evaluate v r = Ok (total (input_witness vals) ts)) /\
  runs vals (binary_summation_ignoring_overflow ts)
    (fun r v => bin_evaluate v r = Ok (total (input_witness vals) ts mod 2 ^ Z.of_nat (longest ts))) /\
  ((2 <= max_bits)%nat -> total (input_witness vals) ts < 2 ^ Z.of_nat (longest ts) ->
   runs vals (binary_summation_asserting_no_overflow ts)
    (fun r v => bin_evaluate v r = Ok (total (input_witness vals) ts))).
Proof.
  intros F Hp vals ts Hm Hv Ht Hb.
  pose proof (hasll_input vals ts Ht) as HH.
  assert (Bl : Forall (Forall is_bit) (map (map (wv vals)) ts)).
  { apply Forall_map. eapply Forall_impl; [|exact Hb]. intros t Hx. apply Forall_map. exact Hx. }
  assert (Hm' : (zbits (max_sum ts) < max_bits)%nat) by (rewrite max_sum_width; exact Hm).
  assert (EZ : zlsum (map bits_val (map (map (wv vals)) ts)) = total (input_witness vals) ts).
  { rewrite map_map. reflexivity. }
  destruct (max_sum_bound ts _ _ HH Bl) as (Bd & _). rewrite EZ in Bd.
  pose proof (zbits_spec (max_sum ts)) as ZS.
  assert (EL : longest ts = max_len ts) by (symmetry; apply max_len_longest). rewrite EL.
  split; [|split].
  - eapply runs_weaken; [eapply (to_runs_bin Hp) with (Q := fun _ => True); [exact Hv|apply zbl_bits| |auto]|].
    + apply (cmpl_binary_summation Hp); eassumption.
    + cbv beta. intros r v [_ E]. rewrite E, EZ, zbl_val by lia. reflexivity.
  - eapply runs_weaken; [eapply (to_runs_bin Hp) with (Q := fun _ => True); [exact Hv|apply zbl_bits| |auto]|].
    + apply (cmpl_bs_ignoring Hp); eassumption.
    + cbv beta. intros r v [_ E]. rewrite E, EZ, zbl_val_mod by lia. reflexivity.
  - intros H2 Hlt. eapply runs_weaken; [eapply (to_runs_bin Hp) with (Q := fun _ => True); [exact Hv|apply zbl_bits| |auto]|].
    + apply (cmpl_bs_asserting Hp); try eassumption. rewrite EZ. exact Hlt.
    + cbv beta. intros r v [_ E]. rewrite E, EZ, zbl_val by lia. reflexivity.
Qed.
Print Assumptions C29_summation_complete.

Theorem C29_sum_complete : forall (F : Field), prime order -> forall vals x y, (S (Nat.max (length x) (length y)) < max_bits)%nat ->
  good_inputs vals -> on_inputs_all vals x -> on_inputs_all vals y ->
  bin_ok (input_witness vals) x -> bin_ok (input_witness vals) y ->
  runs vals (binary_sum x y) (fun r v => bin_evaluate v r = Ok (bv vals x + bv vals y)) /\
  runs vals (binary_sum_ignoring_overflow x y)
    (fun r v => bin_evaluate v r = Ok ((bv vals x + bv vals y) mod 2 ^ Z.of_nat (Nat.max (length x) (length y)))) /\
  (bv vals x + bv vals y < 2 ^ Z.of_nat (Nat.max (length x) (length y)) ->
   runs vals (binary_sum_asserting_no_overflow x y) (fun r v => bin_evaluate v r = Ok (bv vals x + bv vals y))).
Proof.
  intros F Hp vals x y Hm Hv Hx Hy Bx By.
  assert (EL : longest [x; y] = Nat.max (length x) (length y)).
  { unfold longest. cbn [map list_max fold_right]. simpl. lia. }
  assert (ET : total (input_witness vals) [x; y] = bv vals x + bv vals y).
  { unfold total. cbn [map fold_right]. ring. }
  destruct (C29_summation_complete F Hp vals [x; y]) as (A & B & C); auto.
  - unfold sum_width. cbn [map fold_right]. apply Nat.le_lt_trans with (S (Nat.max (length x) (length y))); [|exact Hm].
    apply zbits_min. rewrite pow2_S. pose proof (pow2_pos (length x)). pose proof (pow2_pos (length y)).
    pose proof (pow2_le (length x) (Nat.max (length x) (length y)) ltac:(lia)).
    pose proof (pow2_le (length y) (Nat.max (length x) (length y)) ltac:(lia)). lia.
  - rewrite ET, EL in *. split; [exact A|]. split; [exact B|]. intro H. apply C; [lia|exact H].
Qed.
Print Assumptions C29_sum_complete.

Example C29_example : let F : Field := F257 in
  demo [1; 1; 1; 0; 1; 1] (binary_sum [e_wire 1; e_wire 2; e_wire 3] [e_wire 4; e_wire 5; e_wire 6]) (fun r => r) = Ok (true, [1; 0; 1; 1]) /\
  demo [1; 1; 1; 0; 1; 1] (binary_sum_ignoring_overflow [e_wire 1; e_wire 2; e_wire 3] [e_wire 4; e_wire 5; e_wire 6]) (fun r => r) = Ok (true, [1; 0; 1]) /\
  demo [1; 1; 0; 0; 1; 0] (binary_sum_asserting_no_overflow [e_wire 1; e_wire 2; e_wire 3] [e_wire 4; e_wire 5; e_wire 6]) (fun r => r) = Ok (true, [1; 0; 1]).
Proof. vm_compute. auto. Qed.
Example C29_example_sat : let F : Field := F257 in
  sat_case (binary_sum [e_wire 1; e_wire 2] [e_wire 3; e_wire 4]) (fun w r => bin_val w r =? 5).
Proof. intro F. apply demo_check_ok with (vals := [1; 1; 0; 1]). vm_compute. reflexivity. Qed.

(** * C30 widths *)
(** Full statement (false when an operand is empty): always one bit more than the longer operand. *)
Theorem C30_sum_width_partial : forall (F : Field) x y b r b', (0 < length x)%nat -> (0 < length y)%nat ->
  binary_sum x y b = Ok (r, b') -> length r = S (Nat.max (length x) (length y)).
Proof.
  intros F x y b r b' Hx Hy E. rewrite (binary_summation_length _ _ _ _ E). rewrite max_sum_width. unfold sum_width. cbn [map fold_right].
  apply sum2_width; assumption.
Qed.
Print Assumptions C30_sum_width_partial.

(** An empty operand: no extra bit. *)
Theorem C30_sum_width_empty_refuted : forall (F : Field) x y b r b', length y = 0%nat ->
  (binary_sum x y b = Ok (r, b') \/ binary_sum y x b = Ok (r, b')) -> length r = length x.
Proof.
  intros F x y b r b' Hy [E|E]; rewrite (binary_summation_length _ _ _ _ E); rewrite max_sum_width; unfold sum_width; cbn [map fold_right];
  rewrite Hy; change (2 ^ Z.of_nat 0) with 1; match goal with |- zbits ?z = _ => replace z with (2 ^ Z.of_nat (length x) - 1) by ring end; apply zbits_ones.
Qed.
Print Assumptions C30_sum_width_empty_refuted.

(** The width is the exact number of bits needed: every choice of bits for the terms has a sum below
    2^len, and (if there is any bit) the all-ones choice needs all of them. *)
Theorem C30_summation_width : forall (F : Field) ts b r b', binary_summation ts b = Ok (r, b') ->
  (forall ls, map (@length Z) ls = map (@length _) ts -> Forall (Forall is_bit) ls ->
     fold_right Z.add 0 (map bits_val ls) < 2 ^ Z.of_nat (length r)) /\
  ((0 < length r)%nat ->
     2 ^ Z.of_nat (length r - 1) <= fold_right Z.add 0 (map bits_val (map (fun t : binexpr => repeat 1 (length t)) ts))).
Proof.
  intros F ts b r b' E. rewrite (binary_summation_length _ _ _ _ E), max_sum_width. unfold sum_width.
  set (M := fold_right Z.add 0 (map (fun t : binexpr => 2 ^ Z.of_nat (length t) - 1) ts)).
  assert (HM : 0 <= M).
  { unfold M. clear. induction ts as [|t ts IH]; cbn [map fold_right]; [lia|]. pose proof (pow2_pos (length t)). lia. }
  split.
  - intros ls EL Hb. apply Z.le_lt_trans with M; [|apply zbits_spec, HM]. unfold M. clear - EL Hb.
    revert ts EL. induction Hb as [|l ls Hl _ IH]; intros [|t ts] EL; try discriminate. cbn [map fold_right].
    cbn [map] in EL. injection EL as E1 E2. specialize (IH ts E2). pose proof (bits_val_bound l Hl). rewrite E1 in *. lia.
  - intro Hl. assert (EM : fold_right Z.add 0 (map bits_val (map (fun t : binexpr => repeat 1 (length t)) ts)) = M).
    { unfold M. rewrite map_map. f_equal. apply map_ext. intro t. apply bits_val_ones. }
    rewrite EM. apply zbits_pos. unfold zbits in Hl. destruct (Z.leb_spec M 0); lia.
Qed.
Print Assumptions C30_summation_width.

Example C30_example : let F : Field := F257 in
  demo [1; 1; 1] (binary_sum [e_wire 1; e_wire 2] [e_wire 3]) (fun r => r) = Ok (true, [0; 0; 1]) /\
  demo [1; 1] (binary_sum [e_wire 1; e_wire 2] []) (fun r => r) = Ok (true, [1; 1]).
Proof. vm_compute. auto. Qed.

(** * C31 binary_assert_zero *)
Theorem C31_binary_assert_zero_sound : forall (F : Field), prime order -> forall x,
  sound_call (binary_assert_zero x) (fun w _ => bin_ok w x -> Forall (fun e => ev w e = 0) x).
Proof. intros F Hp x b r b' w E Hw Hs Hx. exact (snd_binary_assert_zero Hp w Hw x Hx b r b' E Hs). Qed.
Print Assumptions C31_binary_assert_zero_sound.

Theorem C31_binary_assert_zero_complete : forall (F : Field), prime order -> (2 <= max_bits)%nat -> forall vals x,
  good_inputs vals -> on_inputs_all vals x -> Forall (fun e => wv vals e = 0) x ->
  runs vals (binary_assert_zero x) (fun _ _ => True).
Proof.
  intros F Hp H2 vals x Hv Hx Hz. apply (to_runs0 Hp); [exact Hv|].
  eapply (cmpl_binary_assert_zero Hp); [exact H2|apply hasl_input; exact Hx|]. apply Forall_map. exact Hz.
Qed.
Print Assumptions C31_binary_assert_zero_complete.

(** In the field with two elements the chunk size is 0 and the call panics. *)
Theorem C31_binary_assert_zero_order2 : forall (F : Field), order = 2 -> forall x b, binary_assert_zero x b = Panic.
Proof.
  intros F H x b. assert (M : max_bits = 1%nat) by (unfold max_bits, el_bits, largest_element; rewrite H; reflexivity).
  unfold binary_assert_zero. rewrite M. reflexivity.
Qed.
Print Assumptions C31_binary_assert_zero_order2.

(** Ten bits in a field of order 7 (max_bits 3): no wrap-around. *)
Example C31_example : let F : Field := F7 in
  demo (repeat 0 10) (binary_assert_zero (map e_wire (seq 1 10))) (fun _ => []) = Ok (true, []) /\
  demo (repeat 1 7 ++ repeat 0 3) (binary_assert_zero (map e_wire (seq 1 10))) (fun _ => []) = Ok (false, []).
Proof. vm_compute. auto. Qed.
Example C31_example_sat : let F : Field := F7 in
  sat_case (binary_assert_zero (map e_wire (seq 1 10))) (fun w _ => bin_val w (map e_wire (seq 1 10)) =? 0).
Proof. intro F. apply demo_check_ok with (vals := repeat 0 10). vm_compute. reflexivity. Qed.

(** * C32 bitwise operations *)
Theorem C32_bitwise_not_sound : forall (F : Field), prime order -> forall x,
  sound_call (bitwise_not x) (fun w r => bin_ok w x ->
    length r = length x /\ bin_ok w r /\ bin_val w r = 2 ^ Z.of_nat (length x) - 1 - bin_val w x).
Proof. intros F Hp x b r b' w E Hw Hs Hx. exact (snd_bitwise_not Hp w Hw x Hx b r b' E Hs). Qed.
Print Assumptions C32_bitwise_not_sound.

Theorem C32_bitwise_sound : forall (F : Field), prime order -> forall x y,
  sound_call (bitwise_and x y) (fun w r => bin_ok w x -> bin_ok w y ->
    length r = length x /\ bin_ok w r /\ bin_val w r = Z.land (bin_val w x) (bin_val w y)) /\
  sound_call (bitwise_or x y) (fun w r => bin_ok w x -> bin_ok w y ->
    length r = length x /\ bin_ok w r /\ bin_val w r = Z.lor (bin_val w x) (bin_val w y)) /\
  sound_call (bitwise_xor x y) (fun w r => bin_ok w x -> bin_ok w y ->
    length r = length x /\ bin_ok w r /\ bin_val w r = Z.lxor (bin_val w x) (bin_val w y)).
Proof.
  intros F Hp x y. split; [|split]; intros b r b' w E Hw Hs Hx Hy.
  - exact (proj2 (snd_bitwise_and Hp w Hw x y Hx Hy b r b' E Hs)).
  - exact (proj2 (snd_bitwise_or Hp w Hw x y Hx Hy b r b' E Hs)).
  - exact (proj2 (snd_bitwise_xor Hp w Hw x y Hx Hy b r b' E Hs)).
Qed.
Print Assumptions C32_bitwise_sound.

Theorem C32_different_lengths_panic : forall (F : Field) x y b, length x <> length y ->
  bitwise_and x y b = Panic /\ bitwise_or x y b = Panic /\ bitwise_xor x y b = Panic.
Proof.
  intros F x y b H. unfold bitwise_and, bitwise_or, bitwise_xor, bitwise2, bbind, blift, oassert.
  destruct (Nat.eqb_spec (length x) (length y)); [contradiction|auto].
Qed.
Print Assumptions C32_different_lengths_panic.

Theorem C32_bitwise_complete : forall (F : Field), prime order -> 2 < order -> forall vals x y,
  good_inputs vals -> on_inputs_all vals x -> on_inputs_all vals y ->
  bin_ok (input_witness vals) x -> bin_ok (input_witness vals) y -> length x = length y ->
  runs vals (bitwise_not x) (fun r v => bin_evaluate v r = Ok (2 ^ Z.of_nat (length x) - 1 - bv vals x)) /\
  runs vals (bitwise_and x y) (fun r v => bin_evaluate v r = Ok (Z.land (bv vals x) (bv vals y))) /\
  runs vals (bitwise_or x y) (fun r v => bin_evaluate v r = Ok (Z.lor (bv vals x) (bv vals y))) /\
  runs vals (bitwise_xor x y) (fun r v => bin_evaluate v r = Ok (Z.lxor (bv vals x) (bv vals y))).
Proof.
  intros F Hp H2 vals x y Hv Hx Hy Bx By L.
  assert (Bx' : Forall is_bit (map (wv vals) x)) by (apply Forall_map; exact Bx).
  assert (By' : Forall is_bit (map (wv vals) y)) by (apply Forall_map; exact By).
  pose proof (hasl_input vals x Hx) as Hx1. pose proof (hasl_input vals y Hy) as Hy1.
  split; [|split; [|split]].
  - eapply runs_weaken; [eapply (to_runs_bin Hp) with (Q := fun _ => True); [exact Hv| |apply (cmpl_bitwise_not Hp); [exact Hx1|exact Bx']|auto]|].
    + apply Forall_map. eapply Forall_impl; [|exact Bx']. intros c [->| ->]; [right|left]; reflexivity.
    + cbv beta. intros r v [_ E]. rewrite E, bits_val_compl, map_length. reflexivity.
  - eapply (runs_bitwise Hp) with (f := Z.mul) (bop := andb); eauto.
    + intros; apply (cmpl_and Hp); assumption.
    + intros [] []; reflexivity.
    + intros. apply Z.land_nonneg; tauto.
    + intros; apply Z.land_spec.
  - eapply (runs_bitwise Hp) with (f := Z.max) (bop := orb); eauto.
    + intros; apply (cmpl_or Hp); assumption.
    + intros [] []; reflexivity.
    + intros. apply Z.lor_nonneg; tauto.
    + intros; apply Z.lor_spec.
  - eapply (runs_bitwise Hp) with (f := fun a b => if a =? b then 0 else 1) (bop := xorb); eauto.
    + intros; apply (cmpl_xor Hp H2); assumption.
    + intros [] []; reflexivity.
    + intros. apply Z.lxor_nonneg; tauto.
    + intros; apply Z.lxor_spec.
Qed.
Print Assumptions C32_bitwise_complete.

Example C32_example : let F : Field := F97 in
  let x := [e_wire 1; e_wire 2] in let y := [e_wire 3; e_wire 4] in
  demo [1; 1; 0; 1] (bitwise_and x y) (fun r => r) = Ok (true, [0; 1]) /\
  demo [1; 0; 0; 0] (bitwise_or x y) (fun r => r) = Ok (true, [1; 0]) /\
  demo [1; 1; 0; 1] (bitwise_xor x y) (fun r => r) = Ok (true, [1; 0]) /\
  demo [1; 0] (bitwise_not x) (fun r => r) = Ok (true, [0; 1]).
Proof. vm_compute. auto. Qed.
Example C32_example_sat : let F : Field := F97 in
  sat_case (bitwise_xor [e_wire 1; e_wire 2] [e_wire 3; e_wire 4]) (fun w r => bin_val w r =? 1).
Proof. intro F. apply demo_check_ok with (vals := [1; 1; 0; 1]). vm_compute. reflexivity. Qed.

(** * C33 rotations and shifts *)
(** The calls add nothing to the builder and always succeed; bit i of the rotated word is the bit n
    places away, indices taken modulo the length. *)
Theorem C33_rotate_inc : forall (F : Field) x n, exists r, (forall b, rotate_inc x n b = Ok (r, b)) /\ length r = length x /\
  forall i d, (i < length x)%nat -> nth ((i + n) mod length x) r d = nth i x d.
Proof. intros F x n. apply rotate_inc_nth. Qed.
Print Assumptions C33_rotate_inc.

Theorem C33_rotate_dec : forall (F : Field) x n, exists r, (forall b, rotate_dec x n b = Ok (r, b)) /\ length r = length x /\
  forall i d, (i < length x)%nat -> nth i r d = nth ((i + n) mod length x) x d.
Proof. intros F x n. apply rotate_dec_nth. Qed.
Print Assumptions C33_rotate_dec.

Theorem C33_rotations_inverse : forall (F : Field) x n b,
  (r <- rotate_inc x n ;; rotate_dec r n) b = Ok (x, b) /\ (r <- rotate_dec x n ;; rotate_inc r n) b = Ok (x, b).
Proof. intros F x n b. apply rotate_inverse. Qed.
Print Assumptions C33_rotations_inverse.

Theorem C33_shift_inc : forall (F : Field), prime order -> forall x n, exists r, (forall b, shift_inc x n b = Ok (r, b)) /\
  length r = length x /\ forall w, wf_witness w -> bin_ok w x ->
    bin_ok w r /\ bin_val w r = (bin_val w x * 2 ^ Z.of_nat n) mod 2 ^ Z.of_nat (length x).
Proof. intros F Hp x n. apply (shift_inc_val Hp). Qed.
Print Assumptions C33_shift_inc.

(** Full statement: the same without n <= length x. *)
Theorem C33_shift_dec_partial : forall (F : Field), prime order -> forall x n, (n <= length x)%nat ->
  exists r, (forall b, shift_dec x n b = Ok (r, b)) /\
  length r = length x /\ forall w, wf_witness w -> bin_ok w x ->
    bin_ok w r /\ bin_val w r = bin_val w x / 2 ^ Z.of_nat n.
Proof. intros F Hp x n. apply (shift_dec_val Hp). Qed.
Print Assumptions C33_shift_dec_partial.

(** ... it panics for every larger n (unless there are no bits at all). *)
Theorem C33_shift_dec_panics_refuted : forall (F : Field) x n b, (length x < n)%nat -> x <> [] -> shift_dec x n b = Panic.
Proof. intros F x n b. apply shift_dec_panics. Qed.
Print Assumptions C33_shift_dec_panics_refuted.

Example C33_example : let F : Field := F97 in let x := map e_wire (seq 1 5) in
  demo [1; 1; 0; 1; 0] (rotate_inc x 7) (fun r => r) = Ok (true, [1; 0; 1; 1; 0]) /\
  demo [1; 1; 0; 1; 0] (rotate_dec x 7) (fun r => r) = Ok (true, [0; 1; 0; 1; 1]) /\
  demo [1; 1; 0; 1; 0] (shift_inc x 2) (fun r => r) = Ok (true, [0; 0; 1; 1; 0]) /\
  demo [1; 1; 0; 1; 0] (shift_inc x 9) (fun r => r) = Ok (true, [0; 0; 0; 0; 0]) /\
  demo [1; 1; 0; 1; 0] (shift_dec x 2) (fun r => r) = Ok (true, [0; 1; 0; 0; 0]) /\
  demo [1; 1; 0; 1; 0] (shift_dec x 6) (fun r => r) = Panic.
Proof. vm_compute. repeat split. Qed.

(** * C34 BinaryExpression utilities *)
Theorem C34_from : forall (F : Field), prime order -> forall n, 0 <= n ->
  length (bin_from n) = zbits n /\ forall w, wf_witness w -> bin_ok w (bin_from n) /\ bin_val w (bin_from n) = n.
Proof.
  intros F Hp n Hn. split; [unfold bin_from; rewrite map_length, seq_length; reflexivity|].
  intros w Hw. destruct (bin_from_val (prime_ge2 Hp) w n (proj1 Hw) Hn) as (A & B & _). auto.
Qed.
Print Assumptions C34_from.

Theorem C34_truncate : forall (F : Field) x l,
  ((l <= length x)%nat -> exists r, bin_truncate x l = Ok r /\ length r = l /\
     forall w, bin_ok w x -> bin_ok w r /\ bin_val w r = bin_val w x mod 2 ^ Z.of_nat l) /\
  ((length x < l)%nat -> bin_truncate x l = Panic).
Proof.
  intros F x l. unfold bin_truncate, oassert. split; intro H; destruct (Nat.leb_spec l (length x)); try lia; [|reflexivity].
  exists (firstn l x). split; [reflexivity|]. split; [rewrite firstn_length; lia|]. intros w Hb.
  split; [apply bin_ok_firstn, Hb|apply bin_split_val; assumption].
Qed.
Print Assumptions C34_truncate.

Theorem C34_pad : forall (F : Field), prime order -> forall x l,
  ((length x <= l)%nat -> exists r, bin_pad x l = Ok r /\ length r = l /\
     forall w, wf_witness w -> bin_ok w x -> bin_ok w r /\ bin_val w r = bin_val w x) /\
  ((l < length x)%nat -> bin_pad x l = Panic).
Proof.
  intros F Hp x l. unfold bin_pad, oassert. split; intro H; destruct (Nat.leb_spec (length x) l); try lia; [|reflexivity].
  eexists. split; [reflexivity|]. split; [rewrite app_length, repeat_length; lia|]. intros w Hw Hb.
  destruct (bin_val_zeros (prime_ge2 Hp) w (l - length x) (proj1 Hw)) as [A B].
  split; [apply Forall_app; auto|]. rewrite bin_val_app, B. ring.
Qed.
Print Assumptions C34_pad.

Theorem C34_chunks : forall (F : Field) x c,
  ((0 < c)%nat -> exists cs, bin_chunks x c = Ok cs /\ bin_concat cs = x /\
     forall w i, bin_ok w x -> bin_val w (nth i cs []) = (bin_val w x / 2 ^ Z.of_nat (i * c)) mod 2 ^ Z.of_nat c) /\
  (c = 0%nat -> bin_chunks x c = Panic).
Proof.
  intros F x c. unfold bin_chunks, chunks. split; intro H; destruct (Nat.eqb_spec c 0); try lia; [|reflexivity].
  eexists. split; [reflexivity|]. split; [apply chunks_fuel_concat; [exact H|lia]|]. intros w i Hb.
  rewrite chunks_fuel_nth by (auto; lia). apply chunk_digit, Hb.
Qed.
Print Assumptions C34_chunks.

Theorem C34_concat : forall (F : Field) w x xs,
  bin_val w (bin_concat (x :: xs)) = bin_val w x + 2 ^ Z.of_nat (length x) * bin_val w (bin_concat xs).
Proof. intros F w x xs. unfold bin_concat. cbn [concat]. apply bin_val_app. Qed.
Print Assumptions C34_concat.

Theorem C34_add_most_significant : forall (F : Field) w x e,
  bin_val w (bin_add_most_significant x e) = bin_val w x + 2 ^ Z.of_nat (length x) * ev w e.
Proof. intros F w x e. unfold bin_add_most_significant. rewrite bin_val_app. unfold bin_val at 2. cbn [map bits_val]. ring. Qed.
Print Assumptions C34_add_most_significant.

Theorem C34_join : forall (F : Field), prime order -> forall x,
  (2 ^ Z.of_nat (length x) <= order -> exists e, bin_join x = Ok e /\ forall w, ev w e = bin_val w x mod order /\
      (bin_ok w x -> bin_val w x < order /\ ev w e = bin_val w x)) /\
  (order < 2 ^ Z.of_nat (length x) -> bin_join x = Panic).
Proof.
  intros F Hp x. split; [|apply bin_join_panics]. intro H. pose proof (prime_ge2 Hp) as Ho.
  destruct (bin_join_ok Ho x H) as (e & E). destruct (bin_join_inv Ho x e E) as (_ & _ & V & _). exists e. split; [exact E|]. intro w.
  split; [apply V|]. intro Hb. pose proof (bin_val_bound w x Hb). rewrite V. split; [lia|apply Z.mod_small; lia].
Qed.
Print Assumptions C34_join.

Example C34_example : let F : Field := F97 in
  demo [1; 0; 1] (blift (bin_join (map e_wire (seq 1 3)))) (fun r => [r]) = Ok (true, [5]) /\
  demo [] (bret (bin_from 6)) (fun r => r) = Ok (true, [0; 1; 1]) /\
  demo [1; 0; 1] (blift (bin_truncate (map e_wire (seq 1 3)) 2)) (fun r => r) = Ok (true, [1; 0]) /\
  demo [1; 0; 1] (blift (bin_pad (map e_wire (seq 1 3)) 4)) (fun r => r) = Ok (true, [1; 0; 1; 0]) /\
  demo [1; 0; 1] (blift (bin_chunks (map e_wire (seq 1 3)) 2)) (fun r => concat r) = Ok (true, [1; 0; 1]).
Proof. vm_compute. repeat split. Qed.

(** * C35 join_allowing_overflow *)
(** Full statement: the same for every length. *)
Theorem C35_join_allowing_overflow_partial : forall (F : Field), prime order -> forall x, (length x <= max_bits)%nat ->
  exists e, bin_join_allowing_overflow x = Ok e /\ forall w, ev w e = bin_val w x mod order.
Proof.
  intros F Hp x L. destruct (join_gen (prime_ge2 Hp) x L) as (e & E & V & _). exists e. split; [exact E|]. exact V.
Qed.
Print Assumptions C35_join_allowing_overflow_partial.

Theorem C35_join_allowing_overflow_panics_refuted : forall (F : Field), 2 < order -> forall x, (max_bits < length x)%nat ->
  bin_join_allowing_overflow x = Panic.
Proof. intros F H2 x L. apply join_overflow_panics; [lia|exact L|exact H2]. Qed.
Print Assumptions C35_join_allowing_overflow_panics_refuted.

Example C35_example : let F : Field := F97 in
  demo (repeat 1 7) (blift (bin_join_allowing_overflow (map e_wire (seq 1 7)))) (fun r => [r]) = Ok (true, [127 - 97]) /\
  demo (repeat 1 8) (blift (bin_join_allowing_overflow (map e_wire (seq 1 8)))) (fun r => [r]) = Panic.
Proof. vm_compute. auto. Qed.

(** * C36 random_access, C37 out of range *)
Theorem C36_random_access_sound : forall (F : Field), prime order -> forall items i,
  sound_call (random_access items i) (fun w r => 
    ev w i < 2 ^ Z.of_nat (index_bits (length items)) /\
    (forall k x, ev w i = Z.of_nat k -> nth_error items k = Some x -> ev w r = ev w x)).
Proof.
  intros F Hp items i b r b' w E Hw Hs.
  destruct (snd_random_access Hp w Hw items i b r b' E Hs) as (_ & A & B). split; [exact A|].
  intros k x Ek Hk. rewrite B, Ek, Nat2Z.id.
  assert (Hl : (k < length items)%nat) by (apply nth_error_Some; congruence).
  rewrite tree_pos_in; [|apply index_bits_cover|exact Hl]. rewrite (nth_error_nth _ _ _ Hk). reflexivity.
Qed.
Print Assumptions C36_random_access_sound.

(** index_bits is the least number of bits that can address all items. *)
Theorem C36_index_bits : forall len, (1 <= len)%nat ->
  (len <= 2 ^ index_bits len)%nat /\ (forall b, (len <= 2 ^ b)%nat -> (index_bits len <= b)%nat).
Proof.
  intros len H. destruct (index_bits_fit len H) as (_ & A & B). split; [exact A|]. intros b Hb.
  destruct B as [->|B]; [lia|]. destruct (le_lt_dec (index_bits len) b) as [|L]; [assumption|].
  pose proof (Nat.pow_le_mono_r 2 b (index_bits len - 1)). lia.
Qed.
Print Assumptions C36_index_bits.

Theorem C36_random_access_complete : forall (F : Field), prime order -> forall vals items i k x,
  good_inputs vals -> on_inputs_all vals items -> on_inputs vals i ->
  (index_bits (length items) < max_bits)%nat -> wv vals i = Z.of_nat k -> nth_error items k = Some x ->
  runs vals (random_access items i) (fun r v => e_evaluate v r = Ok (wv vals x)).
Proof.
  intros F Hp vals items i k x Hv Hi Hx Hm Ek Hk.
  assert (Hl : (k < length items)%nat) by (apply nth_error_Some; congruence).
  apply (to_runs1 Hp); [exact Hv|].
  eapply comp_weaken; [eapply (cmpl_random_access Hp); [apply hasl_input; exact Hi|apply has_input; exact Hx|lia|exact Hm|]|].
  - rewrite Ek. pose proof (index_bits_cover (length items)) as C.
    apply Z.lt_le_trans with (Z.of_nat (length items)); [lia|]. apply inj_le in C. rewrite Nat2Z.inj_pow in C. exact C.
  - cbv beta. intros r P s _ _ [-> Hr]. split; [reflexivity|]. rewrite Ek, Nat2Z.id in Hr.
    rewrite tree_pos_in in Hr; [|apply index_bits_cover|exact Hl].
    rewrite <- (ev_zero (prime_ge2 Hp) (input_witness vals)), map_nth, (nth_error_nth _ _ _ Hk) in Hr. exact Hr.
Qed.
Print Assumptions C36_random_access_complete.

Theorem C36_random_access_empty_panics : forall (F : Field) i b, random_access [] i b = Panic.
Proof. intros F i b. apply random_access_empty. Qed.
Print Assumptions C36_random_access_empty_panics.

(** Exactly what an out-of-range (but addressable) index returns: the leaf reached in the selection tree,
    an item of the list.  Full statement (false): the result is 0. *)
Theorem C37_random_access_value_partial : forall (F : Field), prime order -> forall items i,
  sound_call (random_access items i) (fun w r =>
    let p := tree_pos (index_bits (length items)) (length items) (Z.to_nat (ev w i)) in
    (p < length items)%nat /\ ev w r = ev w (nth p items e_zero)).
Proof.
  intros F Hp items i b r b' w E Hw Hs. cbv zeta.
  destruct (snd_random_access Hp w Hw items i b r b' E Hs) as (A & _ & B). split; [|exact B]. apply tree_pos_lt, A.
Qed.
Print Assumptions C37_random_access_value_partial.

(** ... so if no item is 0 the result never is. *)
Theorem C37_random_access_never_zero_refuted : forall (F : Field), prime order -> forall items i,
  sound_call (random_access items i) (fun w r => (forall x, In x items -> ev w x <> 0) -> ev w r <> 0).
Proof.
  intros F Hp items i b r b' w E Hw Hs H.
  destruct (snd_random_access Hp w Hw items i b r b' E Hs) as (A & _ & ->). apply H, nth_In, tree_pos_lt, A.
Qed.
Print Assumptions C37_random_access_never_zero_refuted.

Example C36_example : let F : Field := F97 in let items := map e_wire (seq 1 5) in
  demo [10; 20; 30; 40; 50; 3] (random_access items (e_wire 6)) (fun r => [r]) = Ok (true, [40]) /\
  demo [10; 20; 30; 40; 50; 4] (random_access items (e_wire 6)) (fun r => [r]) = Ok (true, [50]) /\
  demo [10; 20; 30; 40; 50; 8] (random_access items (e_wire 6)) (fun r => [r]) = Panic.
Proof. vm_compute. auto. Qed.
Example C36_example_sat : let F : Field := F97 in
  sat_case (random_access (map e_wire (seq 1 5)) (e_wire 6)) (fun w r => ev w r =? 40).
Proof. intro F. apply demo_check_ok with (vals := [10; 20; 30; 40; 50; 3]). vm_compute. reflexivity. Qed.
(** Index 5, 6, 7 with five items. *)
Example C37_example : let F : Field := F97 in let items := map e_wire (seq 1 5) in
  demo [10; 20; 30; 40; 50; 5] (random_access items (e_wire 6)) (fun r => [r]) = Ok (true, [50]) /\
  demo [10; 20; 30; 40; 50; 7] (random_access items (e_wire 6)) (fun r => [r]) = Ok (true, [50]).
Proof. vm_compute. auto. Qed.
