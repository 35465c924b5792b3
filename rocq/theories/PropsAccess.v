(** C113: random access with the range of the index under control. *)
From Coq Require Import ZArith List Bool Arith Lia Znumtheory.
From Verif Require Import Base FieldM FieldP ExprM BuilderM GadgetsM Spec ExprP BitsP MonoP LocalP SoundP CmpP GadgetSoundP HonestP
  CompleteP CmpCompleteP GadgetCompleteP SatP ForgeP Demo PropLib ProgramP PropsExact PropsCompare.
Import ListNotations.
Open Scope Z_scope.
Local Notation wv vals := (ev (input_witness vals)).

(** ** Client circuits, not code of /repo *)
Section Client.
Context {F : Field}.
(** What the documentation advises (random_access.rs 14-16): "if you want to prohibit out-of-range indices, you can do so
    with a separate call to assert_lt". *)
Definition access_checked (items : list expr) (i : expr) : B expr :=
  n <- blift (e_from_uint (Z.of_nat (length items))) ;;
  _ <- assert_lt i n ;;
  random_access items i.
(** What the documentation promises (random_access.rs 14: "this gadget returns 0 if the index is out of range") and the
    gadget does not do (C37), by padding the items with zeros to a power of two. *)
Definition access_padded (m : nat) (items : list expr) (i : expr) : B expr :=
  random_access (items ++ repeat e_zero (2 ^ m - length items)) i.
End Client.

Lemma index_bits_pow m : index_bits (2 ^ m) = m.
Proof.
  pose proof (Nat.pow_nonzero 2 m ltac:(lia)) as N. destruct (index_bits_fit (2 ^ m) ltac:(lia)) as (_ & A & B).
  apply Nat.pow_le_mono_r_iff in A; [|lia]. destruct B as [B|B]; [lia|]. apply Nat.pow_lt_mono_r_iff in B; lia.
Qed.
Lemma nth_pad {A} (l : list A) x n k : nth k (l ++ repeat x n) x = nth k l x.
Proof.
  destruct (le_lt_dec (length l) k) as [H|H]; [|apply app_nth1; exact H].
  rewrite app_nth2, (nth_overflow l) by exact H. generalize (k - length l)%nat as j. induction n as [|n IH]; intros [|j]; cbn; auto.
Qed.

Section Access.
Context {F : Field} (Hp : prime order).
Let Hord : 2 <= order := prime_ge2 Hp.

Lemma snd_checked w (Hw : wf_witness w) items i : sound w (access_checked items i) (fun r =>
  exists k, (k < length items)%nat /\ ev w i = Z.of_nat k /\ ev w r = ev w (nth k items e_zero)).
Proof using Hp.
  unfold access_checked. eapply sound_bind with (Q := fun n => ev w n = Z.of_nat (length items)); [|intro; mono|].
  { apply sound_lift. intros n E. unfold e_from_uint, el_from in E. destruct (Z.ltb_spec (Z.of_nat (length items)) order); [|discriminate].
    cbn [obind] in E. inversion E. apply (ev_const Hord); [apply Hw|unfold infield; lia]. }
  cbv beta. intros n En. sbind (apply (snd_assert_lt Hp w Hw)). intros _ L. rewrite En in L.
  slast (apply (snd_random_access Hp w Hw)). intros r (_ & _ & E). pose proof (ev_infield Hord w i) as [I _].
  exists (Z.to_nat (ev w i)). split; [lia|]. split; [lia|]. rewrite E, tree_pos_in; [reflexivity|apply index_bits_cover|lia].
Qed.

Lemma cmpl_checked D P s items vs i k : (4 <= max_bits)%nat -> (index_bits (length items) < max_bits)%nat -> Z.of_nat (length items) < order ->
  hasl s items vs -> has s i (Z.of_nat k) -> (k < length items)%nat ->
  comp D P s (access_checked items i) (done P (fun r s' => has s' r (nth k vs 0))).
Proof using Hp.
  intros H4 Hm Hn Hi Hx Hk. assert (H2 : 2 < order) by (apply (bits_odd Hord); lia). apply comp_hon. intros G _ _. unfold access_checked.
  eapply comp_liftb; [unfold e_from_uint; rewrite el_from_ok by (unfold infield; lia); reflexivity|].
  cbind (eapply (cmpl_assert_cmp Hp H2); [exact H4|exact Hx|apply (has_const Hp); [exact G|unfold infield; lia]|apply Z.ltb_lt; lia]).
  intros u P1 s1 X1 G1 [-> _]. apply (hasl_ext _ _ _ _ X1) in Hi. carry.
  eapply comp_weaken; [eapply (cmpl_random_access Hp); [exact Hi|exact Hx|lia|exact Hm|]|].
  - pose proof (index_bits_cover (length items)) as C. apply inj_le in C. rewrite Nat2Z.inj_pow in C. change (Z.of_nat 2) with 2 in C. lia.
  - cbv beta. intros r P2 s2 _ _ [-> Hr]. split; [reflexivity|]. rewrite Nat2Z.id, tree_pos_in in Hr; [exact Hr|apply index_bits_cover|exact Hk].
Qed.

Lemma pad_length m (items : list expr) : (length items <= 2 ^ m)%nat -> length (items ++ repeat e_zero (2 ^ m - length items)) = (2 ^ m)%nat.
Proof using. intro L. rewrite app_length, repeat_length. lia. Qed.

Lemma snd_padded w (Hw : wf_witness w) m items i : (length items <= 2 ^ m)%nat -> sound w (access_padded m items i) (fun r =>
  ev w i < 2 ^ Z.of_nat m /\ ev w r = ev w (nth (Z.to_nat (ev w i)) items e_zero)).
Proof using Hp.
  intro L. unfold access_padded. slast (apply (snd_random_access Hp w Hw)). rewrite (pad_length m items L), index_bits_pow.
  intros r (_ & Li & E). pose proof (ev_infield Hord w i) as [I _]. split; [exact Li|]. rewrite E, tree_pos_in, nth_pad; [reflexivity|lia|].
  apply Nat2Z.inj_lt. rewrite Nat2Z.inj_pow, Z2Nat.id by exact I. exact Li.
Qed.

Lemma hasl_zeros s n : good s -> hasl s (repeat e_zero n) (repeat 0 n).
Proof using Hp.
  intro G. induction n as [|n IH]; cbn [repeat].
  - constructor.
  - constructor; [apply (has_zero Hp)|exact IH].
Qed.

Lemma cmpl_padded D P s m items vs i a : (length items <= 2 ^ m)%nat -> (m < max_bits)%nat -> hasl s items vs -> has s i a -> a < 2 ^ Z.of_nat m ->
  comp D P s (access_padded m items i) (done P (fun r s' => has s' r (nth (Z.to_nat a) vs 0))).
Proof using Hp.
  intros L Hm Hi Hx La. apply comp_hon. intros G _ _. unfold access_padded. pose proof (has_infield Hp _ _ _ Hx) as Ia. unfold infield in Ia.
  assert (Hl : hasl s (items ++ repeat e_zero (2 ^ m - length items)) (vs ++ repeat 0 (2 ^ m - length items))).
  { apply Forall2_app; [exact Hi|apply hasl_zeros, G]. }
  eapply comp_weaken; [eapply (cmpl_random_access Hp); [exact Hl|exact Hx| | | ]; rewrite (pad_length m items L)|].
  - pose proof (Nat.pow_nonzero 2 m ltac:(lia)). lia.
  - rewrite index_bits_pow. exact Hm.
  - rewrite index_bits_pow. exact La.
  - cbv beta. intros r P2 s2 _ _ [-> Hr]. split; [reflexivity|]. rewrite (pad_length m items L), index_bits_pow, tree_pos_in, nth_pad in Hr; [exact Hr|lia|].
    apply Nat2Z.inj_lt. rewrite Nat2Z.inj_pow, Z2Nat.id by lia. exact La.
Qed.
End Access.

(** ** C113 *)
Theorem C113_checked : forall (F : Field), prime order -> (4 <= max_bits)%nat -> forall items i,
  (index_bits (length items) < max_bits)%nat -> Z.of_nat (length items) < order ->
  allows_exactly (access_checked items i) (uses (i :: items)) ev
    (fun w z => exists k, (k < length items)%nat /\ ev w i = Z.of_nat k /\ z = ev w (nth k items e_zero)) /\
  (forall vals k x, good_inputs vals -> on_inputs_all vals items -> on_inputs vals i -> wv vals i = Z.of_nat k -> nth_error items k = Some x ->
    runs vals (access_checked items i) (fun r v => e_evaluate v r = Ok (wv vals x))).
Proof.
  intros F Hp H4 items i Hm Hn. split; [split|].
  - intros b r b' w E Hw S _. exact (snd_checked Hp w Hw items i b r b' E S).
  - intro z. apply to_sat_call. intros s G [U (k & Lk & Ek & ->)]. inversion U as [|? ? Bi Bs]; subst.
    eapply csat_weaken; [apply csat_comp; [unfold access_checked; local|eapply (cmpl_checked Hp); [exact H4|exact Hm|exact Hn|apply uses_hasl; exact Bs|rewrite <- Ek; apply (uses_has _ _ U); left; reflexivity|exact Lk]]|].
    cbv beta. intros r s' _ _ [_ E]. rewrite E. rewrite <- (ev_zero (prime_ge2 Hp) (wt s)), map_nth. reflexivity.
  - intros vals k x Hv Hi Hx Ek Hk. assert (Hl : (k < length items)%nat) by (apply nth_error_Some; congruence).
    apply (to_runs1 Hp); [exact Hv|]. eapply comp_weaken; [eapply (cmpl_checked Hp _ _ _ _ _ _ k); [exact H4|exact Hm|exact Hn|apply hasl_input; exact Hi|rewrite <- Ek; apply has_input; exact Hx|exact Hl]|].
    cbv beta. intros r P s _ _ [-> Hr]. split; [reflexivity|].
    rewrite <- (ev_zero (prime_ge2 Hp) (input_witness vals)), map_nth, (nth_error_nth _ _ _ Hk) in Hr. exact Hr.
Qed.
Print Assumptions C113_checked.

(** An index of at most [m] bits selects its item, or 0 if there is none; other indices are refused. *)
Theorem C113_padded : forall (F : Field), prime order -> forall m items i, (length items <= 2 ^ m)%nat -> (m < max_bits)%nat ->
  allows_exactly (access_padded m items i) (uses (i :: items)) ev
    (fun w z => ev w i < 2 ^ Z.of_nat m /\
       z = match nth_error items (Z.to_nat (ev w i)) with Some x => ev w x | None => 0 end) /\
  (forall vals, good_inputs vals -> on_inputs_all vals items -> on_inputs vals i -> wv vals i < 2 ^ Z.of_nat m ->
    runs vals (access_padded m items i) (fun r v =>
      e_evaluate v r = Ok (match nth_error items (Z.to_nat (wv vals i)) with Some x => wv vals x | None => 0 end))).
Proof.
  intros F Hp m items i L Hm.
  assert (N : forall w k, ev w (nth k items e_zero) = match nth_error items k with Some x => ev w x | None => 0 end).
  { intros w k. destruct (nth_error items k) as [x|] eqn:E; [rewrite (nth_error_nth _ _ _ E); reflexivity|].
    apply nth_error_None in E. rewrite nth_overflow by exact E. apply (ev_zero (prime_ge2 Hp)). }
  split; [split|].
  - intros b r b' w E Hw S _. destruct (snd_padded Hp w Hw m items i L b r b' E S) as [A B]. split; [exact A|]. rewrite <- N. exact B.
  - intro z. apply to_sat_call. intros s G [U [Lk ->]]. inversion U as [|? ? Bi Bs]; subst.
    eapply csat_weaken; [apply csat_comp; [unfold access_padded; local|eapply (cmpl_padded Hp); [exact L|exact Hm|apply uses_hasl; exact Bs|apply (uses_has _ _ U); left; reflexivity|exact Lk]]|].
    cbv beta. intros r s' _ _ [_ E]. rewrite E, <- N. rewrite <- (ev_zero (prime_ge2 Hp) (wt s)), map_nth. reflexivity.
  - intros vals Hv Hi Hx Li. apply (to_runs1 Hp); [exact Hv|].
    eapply comp_weaken; [eapply (cmpl_padded Hp); [exact L|exact Hm|apply hasl_input; exact Hi|apply has_input; exact Hx|exact Li]|].
    cbv beta. intros r P s _ _ [-> Hr]. split; [reflexivity|].
    rewrite <- (ev_zero (prime_ge2 Hp) (input_witness vals)), map_nth, N in Hr. exact Hr.
Qed.
Print Assumptions C113_padded.

(** Five items over the integers modulo 97; index 6 is accepted by the gadget itself, which returns the last item. *)
Example C113_example : let F : Field := F97 in let items := map e_wire (seq 1 5) in
  prime order /\ (4 <= max_bits)%nat /\ (index_bits (length items) < max_bits)%nat /\ Z.of_nat (length items) < order /\
  demo [10; 20; 30; 40; 50; 6] (random_access items (e_wire 6)) (fun r => [r]) = Ok (true, [50]) /\
  demo [10; 20; 30; 40; 50; 3] (access_checked items (e_wire 6)) (fun r => [r]) = Ok (true, [40]) /\
  demo [10; 20; 30; 40; 50; 6] (access_checked items (e_wire 6)) (fun r => [r]) = Ok (false, [50]) /\
  demo [10; 20; 30; 40; 50; 3] (access_padded 3 items (e_wire 6)) (fun r => [r]) = Ok (true, [40]) /\
  demo [10; 20; 30; 40; 50; 6] (access_padded 3 items (e_wire 6)) (fun r => [r]) = Ok (true, [0]).
Proof.
  intros F items. split; [exact prime_F97|]. split; [vm_compute; lia|]. split; [vm_compute; lia|]. split; [vm_compute; reflexivity|].
  repeat split; vm_compute; reflexivity.
Qed.
