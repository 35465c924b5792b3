(** Properties C20, C23-C27, C29-C37: integer division, splitting, comparisons, binary arithmetic, bitwise
    operations, random access. *)
From Coq Require Import ZArith List Bool Arith Lia Znumtheory.
From Verif Require Import Base FieldM FieldP ExprM BuilderM GadgetsM Spec ExprP BitsP SoundP CmpP GadgetSoundP HonestP
  CompleteP CmpCompleteP GadgetCompleteP SatP ForgeP BinUtilP Demo PropLib.
Import ListNotations.
Open Scope Z_scope.

Notation wv vals := (ev (input_witness vals)).

(** [below2 x y n _]: both expressions use only existing wires. *)
Definition below2 {F : Field} (x y : expr) (n : nat) (_ : witness) : Prop := below n x /\ below n y.

(** * C20 modulus, divides *)
(** Full statement (false): in every satisfying assignment modulus(x, y) is the integer remainder.  What
    the constraints enforce: a remainder below y of x modulo y in the field, where any quotient goes. *)
Theorem C20_modulus_sound_partial : forall (F : Field), prime order -> forall x y,
  sound_call (modulus x y) (fun w r => ev w r < ev w y).
Proof.
  intros F Hp x y. apply to_call. intros w Hw. eapply sound_weaken; [apply (snd_modulus Hp w Hw)|]. cbv beta. tauto.
Qed.
Print Assumptions C20_modulus_sound_partial.

Theorem C20_modulus_complete : forall (F : Field), prime order -> (4 <= max_bits)%nat -> forall vals x y,
  good_inputs vals -> on_inputs vals x -> on_inputs vals y -> wv vals y <> 0 ->
  runs vals (modulus x y) (fun r v => e_evaluate v r = Ok (wv vals x mod wv vals y)).
Proof.
  intros F Hp H4 vals x y Hv Hx Hy Hn. apply (to_runs1 Hp); [exact Hv|].
  apply (cmpl_modulus Hp (max_bits_odd H4)); [exact H4|apply has_input; assumption|apply has_input; assumption|exact Hn].
Qed.
Print Assumptions C20_modulus_complete.

Theorem C20_divides_complete : forall (F : Field), prime order -> (4 <= max_bits)%nat -> forall vals x y,
  good_inputs vals -> on_inputs vals x -> on_inputs vals y -> wv vals x <> 0 ->
  runs vals (divides x y) (fun r v => e_evaluate v r = Ok (if wv vals y mod wv vals x =? 0 then 1 else 0)).
Proof.
  intros F Hp H4 vals x y Hv Hx Hy Hn. apply (to_runs1 Hp); [exact Hv|].
  apply (cmpl_divides Hp (max_bits_odd H4)); [exact H4|apply has_input; assumption|apply has_input; assumption|exact Hn].
Qed.
Print Assumptions C20_divides_complete.

(** In every field with at least four bits, whatever x and y are, a prover can have any remainder below y
    accepted, and for every x >= 2 either answer to "x divides y". *)
Theorem C20_modulus_forgeable_refuted : forall (F : Field), prime order -> (4 <= max_bits)%nat -> forall x y r, 0 <= r ->
  sat_call (modulus x y) (fun n w => below2 x y n w /\ r < ev w y) (fun w e => ev w e = r).
Proof.
  intros F Hp H4 x y r Hr. apply to_sat_call. intros s G [[Bx By] Hlt].
  eapply csat_weaken; [apply (fs_modulus Hp (max_bits_odd H4)) with (a := ev (wt s) x) (b := ev (wt s) y) (r := r);
    [exact H4|apply (has_below (nx s) (wt s) s); auto|apply (has_below (nx s) (wt s) s); auto|lia]|].
  cbv beta. intros e s1 _ _ [_ He]. exact He.
Qed.
Print Assumptions C20_modulus_forgeable_refuted.

Theorem C20_divides_forgeable_refuted : forall (F : Field), prime order -> (4 <= max_bits)%nat -> forall x y (r : bool),
  sat_call (divides x y) (fun n w => below2 x y n w /\ 2 <= ev w x) (fun w e => ev w e = b2z r).
Proof.
  intros F Hp H4 x y r. apply to_sat_call. intros s G [[Bx By] Hlt].
  eapply csat_weaken; [apply (fs_divides Hp (max_bits_odd H4)) with (a := ev (wt s) x) (b := ev (wt s) y) (r := r);
    [exact H4|apply (has_below (nx s) (wt s) s); auto|apply (has_below (nx s) (wt s) s); auto|destruct r; lia]|].
  cbv beta. intros e s1 _ _ [_ He]. exact He.
Qed.
Print Assumptions C20_divides_forgeable_refuted.

Example C20_example : let F : Field := F97 in
  demo [50; 7] (modulus (e_wire 1) (e_wire 2)) (fun r => [r]) = Ok (true, [1]) /\
  demo [7; 49] (divides (e_wire 1) (e_wire 2)) (fun r => [r]) = Ok (true, [1]) /\
  demo [7; 50] (divides (e_wire 1) (e_wire 2)) (fun r => [r]) = Ok (true, [0]).
Proof. vm_compute. auto. Qed.
Example C20_example_sat : let F : Field := F97 in sat_case (modulus (e_wire 1) (e_wire 2)) (fun w r => (ev w r =? 1)).
Proof. intro F. apply demo_check_ok with (vals := [50; 7]). vm_compute. reflexivity. Qed.
(** 10 mod 3 = 1, yet 0 is accepted. *)
Example C20_example_forged : let F : Field := F97 in sat_case (modulus (e_wire 1) (e_wire 2))
  (fun w r => (ev w (e_wire 1) =? 10) && (ev w (e_wire 2) =? 3) && (ev w r =? 0)).
Proof. intro F. apply forge_case with (b := mkB 3 [] [])
  (l := forged [10; 3] (modulus (e_wire 1) (e_wire 2)) [10%nat] [(3%nat, 68); (4%nat, 0)]). vm_compute. reflexivity. Qed.

(** * C23 split *)
Theorem C23_split_sound : forall (F : Field), prime order -> forall x,
  sound_call (split x) (fun w r => length r = max_bits /\ bin_ok w r /\ bin_val w r = ev w x).
Proof. intros F Hp x. apply to_call. intros w Hw. exact (snd_split Hp w Hw x). Qed.
Print Assumptions C23_split_sound.

Theorem C23_split_complete : forall (F : Field), prime order -> (4 <= max_bits)%nat -> forall vals x,
  good_inputs vals -> on_inputs vals x ->
  runs vals (split x) (fun r v => length r = max_bits /\ bin_evaluate v r = Ok (wv vals x)).
Proof.
  intros F Hp H4 vals x Hv Hx.
  pose proof (to_runs_bin Hp vals (split x) (zbl (wv vals x) max_bits) (fun r => length r = max_bits) Hv (zbl_bits _ _)) as H.
  rewrite (zbl_canon Hp) in H by apply (ev_infield (prime_ge2 Hp)). apply H.
  - apply (cmpl_split Hp (max_bits_odd H4)); [exact H4|apply has_input; assumption].
  - intros r E. rewrite E. apply zbl_length.
Qed.
Print Assumptions C23_split_complete.

Example C23_example : let F : Field := F97 in demo [5] (split (e_wire 1)) (fun r => r) = Ok (true, [1;0;1;0;0;0;0]).
Proof. vm_compute. reflexivity. Qed.
Example C23_example_sat : let F : Field := F97 in sat_case (split (e_wire 1)) (fun w r => (bin_val w r =? 96)).
Proof. intro F. apply demo_check_ok with (vals := [96]). vm_compute. reflexivity. Qed.

(** * C24 split_bounded, split_allowing_ambiguity *)
Theorem C24_split_bounded_sound : forall (F : Field), prime order -> forall x n,
  sound_call (split_bounded x n) (fun w r => (n < max_bits)%nat /\ length r = n /\ bin_ok w r /\ bin_val w r = ev w x /\
    ev w x < 2 ^ Z.of_nat n).
Proof.
  intros F Hp x n. apply to_call. intros w Hw. eapply sound_weaken; [apply (snd_split_bounded Hp w Hw)|]. cbv beta.
  intros r (L & Lr & Hb & Hv). repeat (split; [first [assumption|symmetry; assumption]|]). rewrite Hv, <- Lr. apply bin_val_bound. exact Hb.
Qed.
Print Assumptions C24_split_bounded_sound.

Theorem C24_split_bounded_panics : forall (F : Field) x n b, (max_bits <= n)%nat -> split_bounded x n b = Panic.
Proof.
  intros F x n b H. unfold split_bounded, bbind, blift, oassert.
  destruct (Nat.ltb_spec n max_bits); [lia|reflexivity].
Qed.
Print Assumptions C24_split_bounded_panics.

Theorem C24_split_bounded_complete : forall (F : Field), prime order -> forall vals x n, (n < max_bits)%nat ->
  good_inputs vals -> on_inputs vals x -> wv vals x < 2 ^ Z.of_nat n ->
  runs vals (split_bounded x n) (fun r v => length r = n /\ bin_evaluate v r = Ok (wv vals x)).
Proof.
  intros F Hp vals x n Hn Hv Hx Hlt.
  pose proof (to_runs_bin Hp vals (split_bounded x n) (zbl (wv vals x) n) (fun r => length r = n) Hv (zbl_bits _ _)) as H.
  rewrite zbl_val in H by (split; [apply (ev_infield (prime_ge2 Hp))|exact Hlt]). apply H.
  - apply (cmpl_split_bounded Hp); [apply has_input; assumption|exact Hlt|exact Hn].
  - intros r E. rewrite E. apply zbl_length.
Qed.
Print Assumptions C24_split_bounded_complete.

Theorem C24_split_ambiguous_sound : forall (F : Field), prime order -> forall x,
  sound_call (split_allowing_ambiguity x) (fun w r => length r = max_bits /\ bin_ok w r /\
    (bin_val w r = ev w x \/ bin_val w r = ev w x + order)).
Proof. intros F Hp x. apply to_call. intros w Hw. exact (snd_split_amb Hp w Hw x). Qed.
Print Assumptions C24_split_ambiguous_sound.

Theorem C24_split_ambiguous_complete : forall (F : Field), prime order -> forall vals x,
  good_inputs vals -> on_inputs vals x ->
  runs vals (split_allowing_ambiguity x) (fun r v => length r = max_bits /\ bin_evaluate v r = Ok (wv vals x)).
Proof.
  intros F Hp vals x Hv Hx.
  pose proof (to_runs_bin Hp vals (split_allowing_ambiguity x) (zbl (wv vals x) max_bits) (fun r => length r = max_bits) Hv (zbl_bits _ _)) as H.
  rewrite (zbl_canon Hp) in H by apply (ev_infield (prime_ge2 Hp)). apply H.
  - apply (cmpl_split_amb Hp). apply has_input; assumption.
  - intros r E. rewrite E. apply zbl_length.
Qed.
Print Assumptions C24_split_ambiguous_complete.

(** The alias is really accepted, whenever it fits in max_bits bits. *)
Theorem C24_split_ambiguous_alias : forall (F : Field), prime order -> forall x,
  sat_call (split_allowing_ambiguity x) (fun n w => below n x /\ ev w x + order < 2 ^ Z.of_nat max_bits)
    (fun w r => bin_val w r = ev w x + order).
Proof.
  intros F Hp x. apply to_sat_call. intros s G [Bx Hlt].
  pose proof (ev_infield (prime_ge2 Hp) (wt s) x) as [I1 I2].
  assert (R : 0 <= ev (wt s) x + order < 2 ^ Z.of_nat max_bits) by lia.
  eapply csat_weaken; [apply (fs_split_amb Hp) with (a := ev (wt s) x) (l := zbl (ev (wt s) x + order) max_bits);
    [apply (has_below (nx s) (wt s) s); auto|apply zbl_bits| |apply zbl_length]|].
  - rewrite zbl_val by exact R. replace (ev (wt s) x + order) with (ev (wt s) x + 1 * order) by ring.
    rewrite Z.mod_add by lia. apply Z.mod_small. lia.
  - cbv beta. intros r s1 X _ Hr. rewrite (hasl_bin_val _ _ _ Hr), zbl_val by exact R.
    f_equal. symmetry. apply (has_ext s s1 x); [exact X|]. apply (has_below (nx s) (wt s) s); auto.
Qed.
Print Assumptions C24_split_ambiguous_alias.

Example C24_example : let F : Field := F97 in
  demo [5] (split_bounded (e_wire 1) 4) (fun r => r) = Ok (true, [1;0;1;0]) /\
  demo [16] (split_bounded (e_wire 1) 4) (fun r => r) = Panic /\
  demo [96] (split_allowing_ambiguity (e_wire 1)) (fun r => r) = Ok (true, [0;0;0;0;0;1;1]).
Proof. vm_compute. auto. Qed.
Example C24_example_sat : let F : Field := F97 in sat_case (split_bounded (e_wire 1) 4) (fun w r => (bin_val w r =? 5)).
Proof. intro F. apply demo_check_ok with (vals := [5]). vm_compute. reflexivity. Qed.

(** * C25 assert_lt, assert_gt *)
Theorem C25_assert_lt_sound : forall (F : Field), prime order -> forall x y,
  sound_call (assert_lt x y) (fun w _ => ev w x < ev w y).
Proof. intros F Hp x y. apply to_call. intros w Hw. exact (snd_assert_lt Hp w Hw x y). Qed.
Print Assumptions C25_assert_lt_sound.

Theorem C25_assert_gt_sound : forall (F : Field), prime order -> forall x y,
  sound_call (assert_gt x y) (fun w _ => ev w y < ev w x).
Proof. intros F Hp x y. apply to_call. intros w Hw. exact (snd_assert_gt Hp w Hw x y). Qed.
Print Assumptions C25_assert_gt_sound.

Theorem C25_assert_lt_binary_sound : forall (F : Field), prime order -> forall x y,
  sound_call (assert_lt_binary x y) (fun w _ => bin_ok w x -> bin_ok w y -> bin_val w x < bin_val w y).
Proof.
  intros F Hp x y b r b' w E Hw Hs Hx Hy. exact (proj2 (snd_assert_lt_binary Hp w Hw x y Hx Hy b r b' E Hs)).
Qed.
Print Assumptions C25_assert_lt_binary_sound.

Theorem C25_assert_gt_binary_sound : forall (F : Field), prime order -> forall x y,
  sound_call (assert_gt_binary x y) (fun w _ => bin_ok w x -> bin_ok w y -> bin_val w y < bin_val w x).
Proof.
  intros F Hp x y b r b' w E Hw Hs Hx Hy. exact (proj2 (snd_assert_gt_binary Hp w Hw x y Hx Hy b r b' E Hs)).
Qed.
Print Assumptions C25_assert_gt_binary_sound.

Theorem C25_assert_lt_complete : forall (F : Field), prime order -> (4 <= max_bits)%nat -> forall vals x y,
  good_inputs vals -> on_inputs vals x -> on_inputs vals y -> wv vals x < wv vals y ->
  runs vals (assert_lt x y) (fun _ _ => True).
Proof.
  intros F Hp H4 vals x y Hv Hx Hy Hlt. apply (to_runs0 Hp); [exact Hv|].
  eapply (cmpl_assert_cmp Hp (max_bits_odd H4)); [exact H4|apply has_input; exact Hx|apply has_input; exact Hy|].
  apply Z.ltb_lt. exact Hlt.
Qed.
Print Assumptions C25_assert_lt_complete.

Theorem C25_assert_gt_complete : forall (F : Field), prime order -> (4 <= max_bits)%nat -> forall vals x y,
  good_inputs vals -> on_inputs vals x -> on_inputs vals y -> wv vals y < wv vals x ->
  runs vals (assert_gt x y) (fun _ _ => True).
Proof.
  intros F Hp H4 vals x y Hv Hx Hy Hlt. apply (to_runs0 Hp); [exact Hv|].
  eapply (cmpl_assert_cmp Hp (max_bits_odd H4)); [exact H4|apply has_input; exact Hx|apply has_input; exact Hy|].
  apply Z.ltb_lt. exact Hlt.
Qed.
Print Assumptions C25_assert_gt_complete.

(** The binary forms, for all operand lengths the builder accepts (see C28). *)
Theorem C25_assert_binary_complete : forall (F : Field), prime order -> forall vals x y,
  good_inputs vals -> on_inputs_all vals x -> on_inputs_all vals y ->
  bin_ok (input_witness vals) x -> bin_ok (input_witness vals) y ->
  length x = length y -> (0 < length x)%nat -> (S (cmp_chunk_bits (length x)) < max_bits)%nat ->
  bin_val (input_witness vals) x < bin_val (input_witness vals) y ->
  runs vals (assert_lt_binary x y) (fun _ _ => True) /\ runs vals (assert_gt_binary y x) (fun _ _ => True).
Proof.
  intros F Hp vals x y Hv Hx Hy Bx By L L0 Hc Hlt.
  assert (H2 : 2 < order) by (apply (bits_odd (prime_ge2 Hp)); lia).
  assert (Bx' : Forall is_bit (map (wv vals) x)) by (apply Forall_map; exact Bx).
  assert (By' : Forall is_bit (map (wv vals) y)) by (apply Forall_map; exact By).
  split; (apply (to_runs0 Hp); [exact Hv|]); unfold assert_lt_binary, assert_gt_binary, lt_binary, gt_binary.
  - eapply comp_bind; [eapply (cmpl_cmp_binary Hp H2); [apply hasl_input; exact Hx|apply hasl_input; exact Hy|exact Bx'|exact By'|exact L|exact L0|exact Hc]|].
    cbv beta. intros r P1 s1 X1 G1 [-> Hr]. unfold bin_val in Hlt. cbn [cmp_spec] in Hr.
    rewrite (proj2 (Z.ltb_lt _ _) Hlt) in Hr.
    eapply comp_weaken; [apply (cmpl_assert_true Hp); exact Hr|]. cbv beta. intros ? P2 s2 _ _ [-> _]. split; auto.
  - eapply comp_bind; [eapply (cmpl_cmp_binary Hp H2); [apply hasl_input; exact Hy|apply hasl_input; exact Hx|exact By'|exact Bx'|lia|lia|rewrite <- L; exact Hc]|].
    cbv beta. intros r P1 s1 X1 G1 [-> Hr]. unfold bin_val in Hlt. cbn [cmp_spec] in Hr.
    rewrite (proj2 (Z.ltb_lt _ _) Hlt) in Hr.
    eapply comp_weaken; [apply (cmpl_assert_true Hp); exact Hr|]. cbv beta. intros ? P2 s2 _ _ [-> _]. split; auto.
Qed.
Print Assumptions C25_assert_binary_complete.

Example C25_example : let F : Field := F97 in
  demo [42; 43] (assert_lt (e_wire 1) (e_wire 2)) (fun _ => []) = Ok (true, []) /\
  demo [43; 43] (assert_lt (e_wire 1) (e_wire 2)) (fun _ => []) = Ok (false, []) /\
  demo [43; 42] (assert_gt (e_wire 1) (e_wire 2)) (fun _ => []) = Ok (true, []).
Proof. vm_compute. auto. Qed.
Example C25_example_sat : let F : Field := F97 in
  sat_case (assert_lt (e_wire 1) (e_wire 2)) (fun w _ => ev w (e_wire 1) <? ev w (e_wire 2)).
Proof. intro F. apply demo_check_ok with (vals := [42; 43]). vm_compute. reflexivity. Qed.

(** * C26 assert_le, assert_ge *)
(** Full statement: satisfiable only if x <= y.  It is false: in every field of at least four bits,
    whatever the values of x and y are, any satisfying witness so far can be extended to satisfy
    assert_le(x, y); the same for assert_ge and the binary forms. *)
Theorem C26_assert_le_accepts_everything_refuted : forall (F : Field), prime order -> (4 <= max_bits)%nat -> forall x y,
  sat_call (assert_le x y) (below2 x y) (fun _ _ => True).
Proof.
  intros F Hp H4 x y. apply to_sat_call. intros s G [Bx By].
  eapply (fs_assert_le Hp (max_bits_odd H4)); [exact H4|apply (has_below (nx s) (wt s) s); auto|apply (has_below (nx s) (wt s) s); auto].
Qed.
Print Assumptions C26_assert_le_accepts_everything_refuted.

Theorem C26_assert_ge_accepts_everything_refuted : forall (F : Field), prime order -> (4 <= max_bits)%nat -> forall x y,
  sat_call (assert_ge x y) (below2 x y) (fun _ _ => True).
Proof.
  intros F Hp H4 x y. apply to_sat_call. intros s G [Bx By].
  eapply (fs_assert_ge Hp (max_bits_odd H4)); [exact H4|apply (has_below (nx s) (wt s) s); auto|apply (has_below (nx s) (wt s) s); auto].
Qed.
Print Assumptions C26_assert_ge_accepts_everything_refuted.

Theorem C26_assert_binary_accepts_everything_refuted : forall (F : Field), prime order -> forall x y,
  length x = length y -> (0 < length x)%nat -> (S (cmp_chunk_bits (length x)) < max_bits)%nat ->
  sat_call (assert_le_binary x y) (fun n w => Forall (below n) (x ++ y) /\ bin_ok w x /\ bin_ok w y) (fun _ _ => True) /\
  sat_call (assert_ge_binary x y) (fun n w => Forall (below n) (x ++ y) /\ bin_ok w x /\ bin_ok w y) (fun _ _ => True).
Proof.
  intros F Hp x y L L0 Hc. assert (H2 : 2 < order) by (apply (bits_odd (prime_ge2 Hp)); lia).
  split; apply to_sat_call; intros s G (B & Bx & By); apply Forall_app in B; destruct B as [B1 B2].
  - eapply (fs_assert_le_binary Hp H2); [apply Forall2_nth_hasl; [reflexivity|exact B1]|apply Forall2_nth_hasl; [reflexivity|exact B2]|
      apply Forall_map; exact Bx|apply Forall_map; exact By|exact L|exact L0|exact Hc].
  - eapply (fs_assert_ge_binary Hp H2); [apply Forall2_nth_hasl; [reflexivity|exact B1]|apply Forall2_nth_hasl; [reflexivity|exact B2]|
      apply Forall_map; exact Bx|apply Forall_map; exact By|exact L|exact L0|exact Hc].
Qed.
Print Assumptions C26_assert_binary_accepts_everything_refuted.

(** The other half: execute succeeds whenever x <= y. *)
Theorem C26_assert_le_complete_partial : forall (F : Field), prime order -> (4 <= max_bits)%nat -> forall vals x y,
  good_inputs vals -> on_inputs vals x -> on_inputs vals y -> wv vals x <= wv vals y ->
  runs vals (assert_le x y) (fun _ _ => True) /\ runs vals (assert_ge y x) (fun _ _ => True).
Proof.
  intros F Hp H4 vals x y Hv Hx Hy Hlt. split; (apply (to_runs0 Hp); [exact Hv|]).
  - eapply (cmpl_assert_cmp Hp (max_bits_odd H4)); [exact H4|apply has_input; exact Hx|apply has_input; exact Hy|].
    apply Z.leb_le. exact Hlt.
  - eapply (cmpl_assert_cmp Hp (max_bits_odd H4)); [exact H4|apply has_input; exact Hy|apply has_input; exact Hx|].
    apply Z.leb_le. exact Hlt.
Qed.
Print Assumptions C26_assert_le_complete_partial.

(** A concrete forgery: 50 <= 3 in the field of order 97. *)
Example C26_example_forged : let F : Field := F97 in sat_case (assert_le (e_wire 1) (e_wire 2))
  (fun w _ => (ev w (e_wire 1) =? 50) && (ev w (e_wire 2) =? 3)).
Proof. intro F. apply forge_case with (b := mkB 3 [] [])
  (l := forged [50; 3] (assert_le (e_wire 1) (e_wire 2)) [6%nat] [(26%nat, 0); (27%nat, 0)]). vm_compute. reflexivity. Qed.
Example C26_example : let F : Field := F97 in
  demo [42; 42] (assert_le (e_wire 1) (e_wire 2)) (fun _ => []) = Ok (true, []) /\
  demo [43; 42] (assert_ge (e_wire 1) (e_wire 2)) (fun _ => []) = Ok (true, []).
Proof. vm_compute. auto. Qed.

(** * C27 lt, le, gt, ge *)
Theorem C27_compare_complete : forall (F : Field), prime order -> (4 <= max_bits)%nat -> forall vals x y,
  good_inputs vals -> on_inputs vals x -> on_inputs vals y ->
  runs vals (lt x y) (fun r v => e_evaluate v r = Ok (if wv vals x <? wv vals y then 1 else 0)) /\
  runs vals (le x y) (fun r v => e_evaluate v r = Ok (if wv vals x <=? wv vals y then 1 else 0)) /\
  runs vals (gt x y) (fun r v => e_evaluate v r = Ok (if wv vals x >? wv vals y then 1 else 0)) /\
  runs vals (ge x y) (fun r v => e_evaluate v r = Ok (if wv vals x >=? wv vals y then 1 else 0)).
Proof.
  intros F Hp H4 vals x y Hv Hx Hy. rewrite Z.gtb_ltb, Z.geb_leb.
  repeat split; (apply (to_runs1 Hp); [exact Hv|]);
  (eapply comp_weaken; [apply (cmpl_cmp Hp (max_bits_odd H4)); [exact H4|apply has_input; exact Hx|apply has_input; exact Hy]|]);
  cbv beta; intros r P s _ _ [-> Hr]; (split; [reflexivity|]); exact Hr.
Qed.
Print Assumptions C27_compare_complete.

Theorem C27_compare_binary_complete : forall (F : Field), prime order -> forall vals x y,
  good_inputs vals -> on_inputs_all vals x -> on_inputs_all vals y ->
  bin_ok (input_witness vals) x -> bin_ok (input_witness vals) y ->
  length x = length y -> (0 < length x)%nat -> (S (cmp_chunk_bits (length x)) < max_bits)%nat ->
  let X := bin_val (input_witness vals) x in let Y := bin_val (input_witness vals) y in
  runs vals (lt_binary x y) (fun r v => e_evaluate v r = Ok (if X <? Y then 1 else 0)) /\
  runs vals (le_binary x y) (fun r v => e_evaluate v r = Ok (if X <=? Y then 1 else 0)) /\
  runs vals (gt_binary x y) (fun r v => e_evaluate v r = Ok (if X >? Y then 1 else 0)) /\
  runs vals (ge_binary x y) (fun r v => e_evaluate v r = Ok (if X >=? Y then 1 else 0)).
Proof.
  intros F Hp vals x y Hv Hx Hy Bx By L L0 Hc X Y. rewrite Z.gtb_ltb, Z.geb_leb.
  assert (H2 : 2 < order) by (apply (bits_odd (prime_ge2 Hp)); lia).
  assert (Bx' : Forall is_bit (map (wv vals) x)) by (apply Forall_map; exact Bx).
  assert (By' : Forall is_bit (map (wv vals) y)) by (apply Forall_map; exact By).
  repeat split; (apply (to_runs1 Hp); [exact Hv|]);
  (eapply comp_weaken; [eapply (cmpl_cmp_binary Hp H2); [apply hasl_input; exact Hx|apply hasl_input; exact Hy|exact Bx'|exact By'|exact L|exact L0|exact Hc]|]);
  cbv beta; intros r P s _ _ [-> Hr]; (split; [reflexivity|]); exact Hr.
Qed.
Print Assumptions C27_compare_binary_complete.

(** What the constraints enforce about the results.  Full statement (false): the result is the comparison. *)
Theorem C27_compare_sound_partial : forall (F : Field), prime order -> forall x y,
  sound_call (lt x y) (fun w r => is_bit (ev w r) /\ (ev w r = 1 -> ev w x < ev w y)) /\
  sound_call (gt x y) (fun w r => is_bit (ev w r) /\ (ev w r = 1 -> ev w x > ev w y)) /\
  sound_call (le x y) (fun w r => is_bit (ev w r) /\ (ev w r = 0 -> ev w x > ev w y \/ ev w x + order < 2 ^ Z.of_nat max_bits)) /\
  sound_call (ge x y) (fun w r => is_bit (ev w r) /\ (ev w r = 0 -> ev w x < ev w y \/ ev w y + order < 2 ^ Z.of_nat max_bits)).
Proof.
  intros F Hp x y.
  split; [|split; [|split]]; intros b r b' w E Hw Hs.
  - exact (snd_lt Hp w Hw x y b r b' E Hs).
  - destruct (snd_gt Hp w Hw x y b r b' E Hs) as [A C]. split; [exact A|]. intro H. specialize (C H). lia.
  - destruct (snd_le Hp w Hw x y b r b' E Hs) as [A C]. split; [exact A|]. intro H. specialize (C H). lia.
  - exact (snd_ge Hp w Hw x y b r b' E Hs).
Qed.
Print Assumptions C27_compare_sound_partial.

Theorem C27_compare_binary_sound_partial : forall (F : Field), prime order -> forall x y,
  sound_call (lt_binary x y) (fun w r => bin_ok w x -> bin_ok w y -> is_bit (ev w r) /\ (ev w r = 1 -> bin_val w x < bin_val w y)) /\
  sound_call (gt_binary x y) (fun w r => bin_ok w x -> bin_ok w y -> is_bit (ev w r) /\ (ev w r = 1 -> bin_val w x > bin_val w y)) /\
  sound_call (le_binary x y) (fun w r => bin_ok w x -> bin_ok w y -> is_bit (ev w r) /\ (ev w r = 0 -> bin_val w x > bin_val w y)) /\
  sound_call (ge_binary x y) (fun w r => bin_ok w x -> bin_ok w y -> is_bit (ev w r) /\ (ev w r = 0 -> bin_val w x < bin_val w y)).
Proof.
  intros F Hp x y.
  split; [|split; [|split]]; intros b r b' w E Hw Hs Hx Hy.
  - exact (proj2 (snd_lt_binary Hp w Hw x y Hx Hy b r b' E Hs)).
  - destruct (proj2 (snd_gt_binary Hp w Hw x y Hx Hy b r b' E Hs)) as [A C]. split; [exact A|]. intro H. specialize (C H). lia.
  - destruct (proj2 (snd_le_binary Hp w Hw x y Hx Hy b r b' E Hs)) as [A C]. split; [exact A|]. intro H. specialize (C H). lia.
  - exact (proj2 (snd_ge_binary Hp w Hw x y Hx Hy b r b' E Hs)).
Qed.
Print Assumptions C27_compare_binary_sound_partial.

(** ... and nothing more is enforced: lt and gt can always be made 0, le and ge can always be made 1, and
    le (ge) can also be made 0 whatever the order of x and y if the alias of x (y) fits. *)
Theorem C27_compare_forgeable_refuted : forall (F : Field), prime order -> (4 <= max_bits)%nat -> forall x y,
  sat_call (lt x y) (below2 x y) (fun w r => ev w r = 0) /\
  sat_call (gt x y) (below2 x y) (fun w r => ev w r = 0) /\
  sat_call (le x y) (below2 x y) (fun w r => ev w r = 1) /\
  sat_call (ge x y) (below2 x y) (fun w r => ev w r = 1) /\
  sat_call (le x y) (fun n w => below2 x y n w /\ ev w x + order < 2 ^ Z.of_nat max_bits) (fun w r => ev w r = 0) /\
  sat_call (ge x y) (fun n w => below2 x y n w /\ ev w y + order < 2 ^ Z.of_nat max_bits) (fun w r => ev w r = 0).
Proof.
  intros F Hp H4 x y. pose proof (max_bits_odd H4) as H2.
  split; [|split; [|split; [|split; [|split]]]]; apply to_sat_call; intros s G HP.
  - destruct HP as [Bx By]. eapply csat_weaken; [eapply (fs_cmp_less Hp H2) with (r := 0) (strict := true); [exact H4|apply (has_below (nx s) (wt s) s); auto|apply (has_below (nx s) (wt s) s); auto|left; reflexivity|left; reflexivity]|].
    cbv beta. intros e s1 _ _ [_ He]. exact He.
  - destruct HP as [Bx By]. eapply csat_weaken; [eapply (fs_cmp_greater Hp H2) with (r := 0) (strict := true); [exact H4|apply (has_below (nx s) (wt s) s); auto|apply (has_below (nx s) (wt s) s); auto|left; reflexivity|left; reflexivity]|].
    cbv beta. intros e s1 _ _ [_ He]. exact He.
  - destruct HP as [Bx By]. eapply csat_weaken; [eapply (fs_cmp_less Hp H2) with (r := 1) (strict := false); [exact H4|apply (has_below (nx s) (wt s) s); auto|apply (has_below (nx s) (wt s) s); auto|left; reflexivity|left; reflexivity]|].
    cbv beta. intros e s1 _ _ [_ He]. exact He.
  - destruct HP as [Bx By]. eapply csat_weaken; [eapply (fs_cmp_greater Hp H2) with (r := 1) (strict := false); [exact H4|apply (has_below (nx s) (wt s) s); auto|apply (has_below (nx s) (wt s) s); auto|left; reflexivity|left; reflexivity]|].
    cbv beta. intros e s1 _ _ [_ He]. exact He.
  - destruct HP as [[Bx By] Hl]. pose proof (ev_infield (prime_ge2 Hp) (wt s) x). pose proof (ev_infield (prime_ge2 Hp) (wt s) y).
    unfold infield in *. eapply csat_weaken; [eapply (fs_cmp_less Hp H2) with (r := 0) (strict := false) (A := ev (wt s) x + order); [exact H4|apply (has_below (nx s) (wt s) s); auto|apply (has_below (nx s) (wt s) s); auto|right; auto|right; split; [reflexivity|cbn [Bool.eqb]; lia]]|].
    cbv beta. intros e s1 _ _ [_ He]. exact He.
  - destruct HP as [[Bx By] Hl]. pose proof (ev_infield (prime_ge2 Hp) (wt s) x). pose proof (ev_infield (prime_ge2 Hp) (wt s) y).
    unfold infield in *. eapply csat_weaken; [eapply (fs_cmp_greater Hp H2) with (r := 0) (strict := false) (A := ev (wt s) y + order); [exact H4|apply (has_below (nx s) (wt s) s); auto|apply (has_below (nx s) (wt s) s); auto|right; auto|right; split; [reflexivity|cbn [Bool.eqb]; lia]]|].
    cbv beta. intros e s1 _ _ [_ He]. exact He.
Qed.
Print Assumptions C27_compare_forgeable_refuted.

Example C27_example : let F : Field := F97 in
  demo [42; 43] (lt (e_wire 1) (e_wire 2)) (fun r => [r]) = Ok (true, [1]) /\
  demo [43; 43] (le (e_wire 1) (e_wire 2)) (fun r => [r]) = Ok (true, [1]) /\
  demo [42; 43] (gt (e_wire 1) (e_wire 2)) (fun r => [r]) = Ok (true, [0]) /\
  demo [42; 43] (ge (e_wire 1) (e_wire 2)) (fun r => [r]) = Ok (true, [0]).
Proof. vm_compute. auto. Qed.
Example C27_example_sat : let F : Field := F97 in sat_case (lt (e_wire 1) (e_wire 2)) (fun w r => ev w r =? 1).
Proof. intro F. apply demo_check_ok with (vals := [42; 43]). vm_compute. reflexivity. Qed.
Example C27_example_forged : let F : Field := F97 in sat_case (lt (e_wire 1) (e_wire 2))
  (fun w r => (ev w (e_wire 1) =? 3) && (ev w (e_wire 2) =? 50) && (ev w r =? 0)).
Proof. intro F. apply forge_case with (b := mkB 3 [] [])
  (l := forged [3; 50] (lt (e_wire 1) (e_wire 2)) [6%nat] [(26%nat, 0); (27%nat, 0)]). vm_compute. reflexivity. Qed.
