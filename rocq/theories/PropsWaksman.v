(** C38-C41: permutation networks, sorting and the bijection between two lists. *)
From Coq Require Import ZArith List Bool Arith Lia Znumtheory Permutation Sorted.
From Verif Require Import Base FieldM FieldP ExprM BuilderM GadgetsM WaksmanM Spec ExprP BitsP MonoP LocalP
  SoundP CmpP GadgetSoundP HonestP ExecP CompleteP CmpCompleteP GadgetCompleteP SatP ForgeP Demo PropLib BimapP WaksmanP SortP AcceptP.
Import ListNotations.
Open Scope Z_scope.

(** ** C38 *)
Theorem C38_assert_permutation_sound : forall (F : Field), prime order -> forall a b,
  sound_call (assert_permutation a b) (fun w _ => Permutation (map (ev w) a) (map (ev w) b)).
Proof.
  intros F Hp a b. apply to_call. intros w Hw. eapply sound_weaken; [apply (snd_assert_permutation Hp w Hw)|].
  cbv beta. tauto.
Qed.
Print Assumptions C38_assert_permutation_sound.

(** Different lengths make the call panic while building; equal lengths never do. *)
Theorem C38_assert_permutation_panics : forall (F : Field) a b bd, length a <> length b -> assert_permutation a b bd = Panic.
Proof. intros F a b bd H. unfold assert_permutation. apply fuel_mismatch, H. Qed.
Print Assumptions C38_assert_permutation_panics.

Example C38_example_sat : let F : Field := F97 in
  sat_case (assert_permutation (map e_wire [1; 2; 3; 4; 5]%nat) (map e_wire [6; 7; 8; 9; 10]%nat)) (fun w _ => ev w (e_wire 1) =? 7).
Proof. intro F. apply demo_check_ok with (vals := [7; 8; 8; 9; 10; 10; 8; 7; 9; 8]). vm_compute. reflexivity. Qed.
Example C38_example_panic : let F : Field := F97 in assert_permutation [e_wire 1] [] b_new = Panic.
Proof. reflexivity. Qed.

(** ** C39 *)
Theorem C39_assert_permutation_complete : forall (F : Field), prime order -> forall vals a b,
  good_inputs vals -> on_inputs_all vals a -> on_inputs_all vals b ->
  Permutation (map (ev (input_witness vals)) a) (map (ev (input_witness vals)) b) ->
  runs vals (assert_permutation a b) (fun _ _ => True).
Proof.
  intros F Hp vals a b Hv Ha Hb HP. eapply (to_runs Hp) with (Q := fun _ _ => True); [exact Hv| |auto].
  eapply (cmpl_assert_permutation Hp); [apply hasl_input, Ha|apply hasl_input, Hb|exact HP].
Qed.
Print Assumptions C39_assert_permutation_complete.

(** On any builder: every witness in which the values are a permutation extends to the switch wires. *)
Theorem C39_assert_permutation_satisfiable : forall (F : Field), prime order -> forall a b,
  sat_call (assert_permutation a b) (fun n w => Forall (below n) a /\ Forall (below n) b /\
    Permutation (map (ev w) a) (map (ev w) b)) (fun _ _ => True).
Proof.
  intros F Hp a b. apply to_sat_call. intros s G (Ha & Hb & HP). apply csat_comp; [local|].
  assert (K : forall l, Forall (below (nx s)) l -> hasl s l (map (ev (wt s)) l)).
  { intros l Hl. unfold hasl. induction Hl; cbn; constructor; auto. apply (has_below (nx s) (wt s) s); auto. }
  eapply (cmpl_assert_permutation Hp); [apply K, Ha|apply K, Hb|exact HP].
Qed.
Print Assumptions C39_assert_permutation_satisfiable.

(** If the values are not a permutation of each other, execute never reports success. *)
Theorem C39_assert_permutation_rejects : forall (F : Field), prime order -> forall vals a b,
  good_inputs vals -> on_inputs_all vals a -> on_inputs_all vals b ->
  ~ Permutation (map (ev (input_witness vals)) a) (map (ev (input_witness vals)) b) ->
  never_accepts vals (assert_permutation a b).
Proof.
  intros F Hp vals a b Hv Ha Hb HP. eapply (rejected Hp); [exact Hv|mono|apply C38_assert_permutation_sound, Hp|].
  cbv beta. intros w _ Hw Hi H. apply HP.
  assert (K : forall l, on_inputs_all vals l -> map (ev w) l = map (ev (input_witness vals)) l).
  { intros l Hl. unfold on_inputs_all in Hl. rewrite Forall_forall in Hl. apply map_ext_in. intros e He.
    apply (ev_on_inputs vals); [exact Hi|apply Hl, He]. }
  rewrite <- (K a Ha), <- (K b Hb). exact H.
Qed.
Print Assumptions C39_assert_permutation_rejects.

Example C39_example : let F : Field := F97 in
  demo [7; 8; 8; 9; 10; 11; 11; 10; 8; 7; 9; 8] (assert_permutation (map e_wire [1; 2; 3; 4; 5; 6]%nat) (map e_wire [7; 8; 9; 10; 11; 12]%nat)) (fun _ => [])
  = Ok (true, []).
Proof. vm_compute. reflexivity. Qed.
Example C39_example_reject : let F : Field := F97 in
  demo [7; 8; 9; 7; 8; 8] (assert_permutation (map e_wire [1; 2; 3]%nat) (map e_wire [4; 5; 6]%nat)) (fun _ => []) = Panic.
Proof. vm_compute. reflexivity. Qed.

(** ** C40 *)
Theorem C40_sort_complete : forall (F : Field), prime order -> (4 <= max_bits)%nat -> forall vals l,
  good_inputs vals -> on_inputs_all vals l -> l <> [] ->
  let xs := map (ev (input_witness vals)) l in
  (exists ys, Permutation xs ys /\ StronglySorted Z.le ys /\
     runs vals (sort_ascending l) (fun r v => omap (e_evaluate v) r = Ok ys)) /\
  (exists ys, Permutation xs ys /\ StronglySorted Z.ge ys /\
     runs vals (sort_descending l) (fun r v => omap (e_evaluate v) r = Ok ys)).
Proof.
  intros F Hp H4 vals l Hv Hl Hne xs. pose proof (max_bits_odd H4) as H2. split.
  - exists (sort_items xs). split; [apply sort_items_perm|]. split; [apply sort_items_sorted|].
    apply (to_runsl Hp); [exact Hv|]. apply (cmpl_sort_ascending Hp H2); [exact H4|exact Hne|apply hasl_input, Hl].
  - exists (rev (sort_items xs)). split; [rewrite <- Permutation_rev; apply sort_items_perm|]. split.
    + pose proof (StronglySorted_rev _ _ (sort_items_sorted xs)) as S. revert S. generalize (rev (sort_items xs)) as ys.
      induction 1 as [|y ys Hs IH Hy]; constructor; auto. eapply Forall_impl; [|exact Hy]. cbv beta. intros. lia.
    + apply (to_runsl Hp); [exact Hv|]. apply (cmpl_sort_descending Hp H2); [exact H4|exact Hne|apply hasl_input, Hl].
Qed.
Print Assumptions C40_sort_complete.

(** In every satisfying assignment the outputs are a rearrangement of the inputs. *)
Theorem C40_sort_permutation_sound : forall (F : Field), prime order -> forall l,
  sound_call (sort_ascending l) (fun w r => Permutation (map (ev w) l) (map (ev w) r)) /\
  sound_call (sort_descending l) (fun w r => Permutation (map (ev w) l) (map (ev w) r)).
Proof.
  intros F Hp l. split; apply to_call; intros w Hw.
  - eapply sound_weaken; [apply (snd_sort_ascending Hp w Hw)|]. cbv beta. tauto.
  - eapply sound_weaken; [apply (snd_sort_descending Hp w Hw)|]. cbv beta. tauto.
Qed.
Print Assumptions C40_sort_permutation_sound.

(** False as stated: the order is not enforced.  Every rearrangement of the inputs, sorted or not, is the output of
    some satisfying assignment. *)
Theorem C40_order_not_enforced_refuted : forall (F : Field), prime order -> (4 <= max_bits)%nat -> forall l (f : list Z -> list Z),
  l <> [] -> (forall xs, Permutation xs (f xs)) ->
  sat_call (sort_ascending l) (fun n _ => Forall (below n) l) (fun w r => map (ev w) r = f (map (ev w) l)) /\
  sat_call (sort_descending l) (fun n _ => Forall (below n) l) (fun w r => map (ev w) r = f (map (ev w) l)).
Proof.
  intros F Hp H4 l f Hne Hf. pose proof (max_bits_odd H4) as H2.
  assert (K : forall s, Forall (below (nx s)) l -> hasl s l (map (ev (wt s)) l)).
  { intros s Hl. clear - Hl. unfold hasl. induction Hl; cbn; constructor; auto. apply (has_below (nx s) (wt s) s); auto. }
  split; apply to_sat_call; intros s G Hl.
  - eapply csat_weaken; [eapply (fs_sort_ascending Hp H2); [exact H4|exact Hne|apply K, Hl|apply Hf]|].
    cbv beta. intros r s1 X1 G1 Hr. rewrite (proj1 (hasl_map_ev _ _ _ Hr)), (proj1 (hasl_map_ev _ _ _ (hasl_ext _ _ _ _ X1 (K s Hl)))). reflexivity.
  - eapply csat_weaken; [eapply (fs_sort_descending Hp H2); [exact H4|exact Hne|apply K, Hl|apply Hf]|].
    cbv beta. intros r s1 X1 G1 Hr. rewrite (proj1 (hasl_map_ev _ _ _ Hr)), (proj1 (hasl_map_ev _ _ _ (hasl_ext _ _ _ _ X1 (K s Hl)))). reflexivity.
Qed.
Print Assumptions C40_order_not_enforced_refuted.

(** The order is wrong in a concrete satisfying assignment: inputs 3, 50 and outputs 50, 3. *)
Example C40_example_unsorted : let F : Field := F97 in exists r b' w,
  sort_ascending [e_wire 1; e_wire 2] (mkB 3 [] []) = Ok (r, b') /\ wf_witness w /\ sat w b' /\
  w 1%nat = 3 /\ w 2%nat = 50 /\ map (ev w) r = [50; 3].
Proof.
  intro F.
  destruct (C40_order_not_enforced_refuted F97 prime_F97 ltac:(vm_compute; lia) [e_wire 1; e_wire 2] (@rev Z)
    ltac:(discriminate) (@Permutation_rev Z)) as [H _].
  destruct (H (mkB 3 [] []) (input_witness [3; 50])) as (r & b' & w & E & _ & W & X & S & R).
  - split; [cbn; lia|constructor].
  - apply (wf_input prime_F97). repeat constructor; cbn; lia.
  - constructor.
  - constructor; [|constructor; [|constructor]]; intros k Hk; cbn in *; lia.
  - exists r, b', w. assert (E1 : w 1%nat = 3) by (apply (X 1%nat); cbn; lia). assert (E2 : w 2%nat = 50) by (apply (X 2%nat); cbn; lia).
    split; [exact E|]. split; [exact W|]. split; [exact S|]. split; [exact E1|]. split; [exact E2|].
    etransitivity; [exact R|]. cbn [map rev app]. unfold ev. cbn. rewrite E1, E2. reflexivity.
Qed.

(** The empty list makes both panic (an index underflow), on every builder. *)
Theorem C40_empty_panics : forall (F : Field) b, sort_ascending [] b = Panic /\ sort_descending [] b = Panic.
Proof. intros F b. split; reflexivity. Qed.
Print Assumptions C40_empty_panics.

Example C40_example : let F : Field := F97 in
  demo [42; 3; 96; 3] (sort_ascending (map e_wire [1; 2; 3; 4]%nat)) (fun r => r) = Ok (true, [3; 3; 42; 96]) /\
  demo [42; 3; 96; 3] (sort_descending (map e_wire [1; 2; 3; 4]%nat)) (fun r => r) = Ok (true, [96; 42; 3; 3]).
Proof. vm_compute. auto. Qed.
Example C40_example_sat : let F : Field := F97 in
  sat_case (sort_ascending (map e_wire [1; 2; 3]%nat)) (fun w r => ev w (nth 0 r e_zero) =? 3).
Proof. intro F. apply demo_check_ok with (vals := [42; 3; 96]). vm_compute. reflexivity. Qed.

(** ** C41 *)
Lemma bimap_outside n (m : bimap) : length m = n ->
  (forall i, (i < n)%nat -> exists j, bm_left m i = Some j) -> forall i, (n <= i)%nat -> bm_left m i = None.
Proof.
  intros L H i Hi.
  assert (P : Permutation (seq 0 n) (map fst m)).
  { apply NoDup_Permutation_bis; [apply seq_NoDup|rewrite map_length, seq_length; lia|].
    intros k Hk. apply in_seq in Hk. destruct (H k ltac:(lia)) as [j Hj]. unfold bm_left in Hj.
    destruct (find _ m) as [[a b]|] eqn:E; [|discriminate]. apply find_some in E. destruct E as [E1 E2].
    apply Nat.eqb_eq in E2. cbn in E2. subst a. apply (in_map fst) in E1. exact E1. }
  unfold bm_left. destruct (find _ m) as [[a b]|] eqn:E; [|reflexivity]. apply find_some in E. destruct E as [E1 E2].
  apply Nat.eqb_eq in E2. cbn in E2. subst a. apply (in_map fst) in E1. cbn in E1.
  apply Permutation_sym in P. apply (Permutation_in _ P), in_seq in E1. lia.
Qed.
Lemma bimap_outside_r n (m : bimap) : length m = n ->
  (forall i, (i < n)%nat -> exists j, bm_right m i = Some j) -> forall i, (n <= i)%nat -> bm_right m i = None.
Proof.
  intros L H i Hi.
  assert (K : forall j, bm_right m j = bm_left (map (fun p => (snd p, fst p)) m) j).
  { intro j. unfold bm_right, bm_left. clear. induction m as [|[a b] m IH]; cbn; [reflexivity|]. destruct (b =? j)%nat; [reflexivity|exact IH]. }
  rewrite K. apply (bimap_outside n); [rewrite map_length; exact L| |exact Hi]. intros j Hj. rewrite <- K. apply H, Hj.
Qed.

(** The two lookups of the result are total on the indices, inverse to each other, relate positions holding equal
    values, and are undefined elsewhere. *)
Theorem C41_bimap : forall (T : Type) (eqb : T -> T -> bool), (forall x y, eqb x y = true <-> x = y) -> forall a b,
  (Permutation a b -> exists m, bimap_from_lists eqb a b = Ok m /\
     (forall i, (i < length a)%nat -> exists j x, bm_left m i = Some j /\ bm_right m j = Some i /\ nth_error a i = Some x /\ nth_error b j = Some x) /\
     (forall j, (j < length b)%nat -> exists i x, bm_right m j = Some i /\ bm_left m i = Some j /\ nth_error a i = Some x /\ nth_error b j = Some x) /\
     (forall i, (length a <= i)%nat -> bm_left m i = None /\ bm_right m i = None)) /\
  (~ Permutation a b -> bimap_from_lists eqb a b = Panic).
Proof.
  intros T eqb H a b. destruct (bimap_from_lists_spec eqb H a b) as [S1 S2]. split; [|exact S2].
  intro P. destruct (S1 P) as (m & E & [M1 M2] & L). exists m. split; [exact E|]. pose proof (Permutation_length P) as LP. split; [|split].
  - intros i Hi. destruct (M1 i Hi) as (j & Hj & B1 & B2 & N). destruct (nth_error a i) as [x|] eqn:Ea.
    + exists j, x. auto.
    + apply nth_error_None in Ea. lia.
  - intros j Hj. destruct (M2 j ltac:(lia)) as (i & Hi & B1 & B2 & N). destruct (nth_error a i) as [x|] eqn:Ea.
    + exists i, x. auto.
    + apply nth_error_None in Ea. lia.
  - intros i Hi. split.
    + apply (bimap_outside (length a)); [exact L| |exact Hi]. intros k Hk. destruct (M1 k Hk) as (j & _ & B & _). eauto.
    + apply (bimap_outside_r (length a)); [exact L| |exact Hi]. intros k Hk. destruct (M2 k Hk) as (j & _ & _ & B & _). eauto.
Qed.
Print Assumptions C41_bimap.

Example C41_example : bimap_from_lists Z.eqb [5; 6; 5; 7] [7; 5; 5; 6] = Ok [(3, 0); (2, 1); (1, 3); (0, 2)]%nat /\
  Permutation [5; 6; 5; 7] [7; 5; 5; 6] /\ bimap_from_lists Z.eqb [5; 6; 6] [6; 5; 5] = Panic.
Proof.
  split; [reflexivity|]. split; [|reflexivity].
  apply (Permutation_trans (l' := [5; 5; 6; 7])); [constructor; apply perm_swap|].
  change [7; 5; 5; 6] with ([7] ++ [5; 5; 6]). apply (Permutation_trans (l' := [5; 5; 6] ++ [7])); [reflexivity|]. apply Permutation_app_comm.
Qed.
