(** C76: every wire has one origin; the witness does not depend on the order of the generators. *)
From Coq Require Import ZArith List Bool Arith Lia Permutation.
From Verif Require Import Base FieldM FieldP ExprM BuilderM GadgetsM CryptoM CurveM WaksmanM Spec MonoP LocalP HonestP ExecP CoreP Demo DetP PropsBuilder.
Import ListNotations.
Open Scope nat_scope.

(** The gadgets of the library: the calls of PropsBuilder.v except the methods that hand out wires to the user (those are
    [source]) and GadgetBuilder::generator with a closure of the user's own. *)
Inductive library_call {F : Field} : forall {A : Type}, B A -> Prop :=
| l_pure A (o : outcome A) : library_call (blift o)
| l_then A C (m : B A) (k : A -> B C) : library_call m -> (forall a, library_call (k a)) -> library_call (bbind m k)
| l_assert_product x y z : library_call (assert_product x y z)
| l_assert_boolean x : library_call (assert_boolean x)
| l_assert_equal x y : library_call (assert_equal x y)
| l_assert_zero x : library_call (assert_zero x)
| l_assert_true x : library_call (assert_true x)
| l_assert_false x : library_call (assert_false x)
| l_product x y : library_call (product x y)
| l_exponentiation x p : library_call (exponentiation x p)
| l_inverse x : library_call (inverse x)
| l_assert_nonzero x : library_call (assert_nonzero x)
| l_assert_nonequal x y : library_call (assert_nonequal x y)
| l_nonzero x : library_call (nonzero x)
| l_not x : library_call (b_not x)
| l_and x y : library_call (b_and x y)
| l_or x y : library_call (b_or x y)
| l_xor x y : library_call (b_xor x y)
| l_zero x : library_call (g_zero x)
| l_equal x y : library_call (g_equal x y)
| l_selection c x y : library_call (selection c x y)
| l_inverse_or_zero x : library_call (inverse_or_zero x)
| l_quotient x y : library_call (quotient x y)
| l_quotient_unsafe x y : library_call (quotient_unsafe x y)
| l_split x : library_call (split x)
| l_split_allowing_ambiguity x : library_call (split_allowing_ambiguity x)
| l_split_bounded x n : library_call (split_bounded x n)
| l_cmp_binary x y less strict : library_call (cmp_binary x y less strict)
| l_assert_lt_binary x y : library_call (assert_lt_binary x y)
| l_assert_le_binary x y : library_call (assert_le_binary x y)
| l_assert_gt_binary x y : library_call (assert_gt_binary x y)
| l_assert_ge_binary x y : library_call (assert_ge_binary x y)
| l_cmp x y less strict : library_call (cmp x y less strict)
| l_assert_lt x y : library_call (assert_lt x y)
| l_assert_le x y : library_call (assert_le x y)
| l_assert_gt x y : library_call (assert_gt x y)
| l_assert_ge x y : library_call (assert_ge x y)
| l_modulus x y : library_call (modulus x y)
| l_divides x y : library_call (divides x y)
| l_binary_summation ts : library_call (binary_summation ts)
| l_binary_summation_ignoring_overflow ts : library_call (binary_summation_ignoring_overflow ts)
| l_binary_summation_asserting_no_overflow ts : library_call (binary_summation_asserting_no_overflow ts)
| l_binary_assert_zero x : library_call (binary_assert_zero x)
| l_bitwise_not x : library_call (bitwise_not x)
| l_bitwise_and x y : library_call (bitwise_and x y)
| l_bitwise_or x y : library_call (bitwise_or x y)
| l_bitwise_xor x y : library_call (bitwise_xor x y)
| l_rotate_inc x n : library_call (rotate_inc x n)
| l_rotate_dec x n : library_call (rotate_dec x n)
| l_shift_inc x n : library_call (shift_inc x n)
| l_shift_dec x n : library_call (shift_dec x n)
| l_random_access items i : library_call (random_access items i)
| l_random_access_binary items bits : library_call (random_access_binary items bits)
| l_assert_permutation a b : library_call (assert_permutation a b)
| l_sort_ascending l : library_call (sort_ascending l)
| l_sort_descending l : library_call (sort_descending l)
| l_monomial n x : library_call (permute (monomial n) x)
| l_monomial_inverse n x : library_call (p_inverse (monomial n) x)
| l_mimc_encrypt cs n key input : library_call (mimc_encrypt cs (monomial n) key input)
| l_mimc_decrypt cs n key output : library_call (mimc_decrypt cs (monomial n) key output)
| l_davies_meyer c x y : (forall k i, library_call (encrypt c k i)) -> library_call (davies_meyer c x y)
| l_miyaguchi_preneel c x y : (forall k i, library_call (encrypt c k i)) -> library_call (miyaguchi_preneel c x y)
| l_merkle_damgard iv m blocks : (forall x y, library_call (m x y)) -> library_call (merkle_damgard iv m blocks)
| l_merkle_tree_root m leaf path : (forall x y, library_call (m x y)) -> library_call (merkle_tree_root m leaf path)
| l_assert_merkle_tree_membership m leaf root path : (forall x y, library_call (m x y)) ->
    library_call (assert_merkle_tree_membership m leaf root path)
| l_sponge s inputs n : (forall xs, library_call (mp_permute (sp_perm s) xs)) -> library_call (sponge_evaluate s inputs n)
| l_poseidon p xs : library_call (poseidon_permute p xs)
| l_rescue r xs : library_call (rescue_permute r xs)
| l_ed_expr_new C x y : library_call (ed_expr_new C x y)
| l_ed_add C l r : library_call (ed_add_expressions C l r)
| l_ed_double C p : library_call (ed_double_expression C p)
| l_mul_boolean C p b : library_call (mul_boolean_expression (edwards_group C) p b)
| l_mul_scalar C p e : library_call (mul_scalar_expression (edwards_group C) p e)
| l_schnorr C gen sg msg pk (m : compression) : (forall x y, library_call (m x y)) ->
    library_call (schnorr_verify (mkCyclic (edwards_group C) gen) sg msg pk m).

(** A program: wires asked for by the user ([ws]) and library calls, in any order. *)
Inductive program {F : Field} : list wire -> builder -> Prop :=
| p_new : program [] b_new
| p_source ws b A (m : B A) f r b' : program ws b -> source m f -> m b = Ok (r, b') -> program (ws ++ f r) b'
| p_call ws b A (m : B A) r b' : program ws b -> library_call m -> m b = Ok (r, b') -> program ws b'.

Create HintDb detl discriminated.
#[local] Hint Constants Opaque : detl.
#[local] Hint Resolve det_ret det_lift det_assert_product det_assert_boolean det_assert_equal det_assert_zero det_assert_true det_assert_false det_product
  det_exponentiation det_inverse det_assert_nonzero det_assert_nonequal det_nonzero det_not det_and det_or det_xor det_zero det_equal
  det_selection det_inverse_or_zero det_quotient det_quotient_unsafe det_split_without_range_check det_split_allowing_ambiguity
  det_split_bounded det_cmp_subtractive det_cmp_binary det_lt_binary det_le_binary det_gt_binary det_ge_binary det_split det_cmp det_lt
  det_le det_gt det_ge det_modulus det_divides det_binary_summation det_binary_assert_zero det_summation_ignoring_overflow
  det_summation_asserting_no_overflow det_bitwise_not det_bitwise_and det_bitwise_or det_bitwise_xor det_rotate_inc det_rotate_dec
  det_shift_inc det_shift_dec det_select_pairs det_random_access_binary det_random_access det_2x2 det_assert_permutation det_sort_ascending
  det_sort_descending det_monomial_inverse det_mimc_encrypt det_mimc_decrypt det_davies_meyer det_miyaguchi_preneel det_merkle_damgard
  det_merkle_tree_root det_assert_membership det_sponge_step det_sponge_squeeze det_sponge det_poseidon det_rescue det_ed_expr_new
  det_ed_add det_ed_double det_mul_boolean det_mul_scalar det_schnorr : detl.
Section Det.
Context {F : Field}.
Lemma library_det (Hord : (2 <= order)%Z) A (m : B A) : library_call m -> det m.
Proof.
  induction 1; try solve [auto with detl nocore].
  - apply det_bind; assumption.
  - apply det_exponentiation.
  - apply det_monomial_inverse.
Qed.
Lemma source_own A (m : B A) f : source m f -> own [] m (fun r U' => Permutation U' (f r)).
Proof.
  destruct 1.
  - eapply own_weaken; [apply own_wire|]. cbv beta. intros w U ->. reflexivity.
  - eapply own_weaken; [apply own_wires|]. cbv beta. intros w U [_ P]. rewrite app_nil_r in P. exact P.
  - eapply own_weaken; [apply own_boolean_wire|]. cbv beta. intros w U ->. reflexivity.
  - eapply own_weaken; [apply own_binary_wire|]. cbv beta. intros w U [_ P]. rewrite app_nil_r in P. exact P.
Qed.
Lemma program_origin (Hord : (2 <= order)%Z) ws b : program ws b -> 1 <= next b /\
  exists L, generators b = map fst L /\ writes_all L /\ Permutation (ws ++ outs L) (seq 1 (next b - 1)).
Proof.
  induction 1 as [|ws b A m f r b' _ IH Hs E|ws b A m r b' _ IH Hc E].
  - split; [cbn; lia|]. exists []. split; [reflexivity|]. split; constructor.
  - destruct IH as (N & L & G & W & P). destruct (source_own A m f Hs _ _ _ E) as (N' & L' & U & G' & W' & PU & P'). split; [lia|].
    exists (L ++ L'). split; [rewrite G', G, map_app; reflexivity|]. split; [apply Forall_app; auto|]. cbn [app] in P'. rewrite PU in P'.
    rewrite outs_app. replace (next b' - 1) with ((next b - 1) + (next b' - next b)) by lia. rewrite seq_app. replace (1 + (next b - 1)) with (next b) by lia.
    rewrite <- P, <- P', <- !app_assoc. apply Permutation_app_head. rewrite !app_assoc. apply Permutation_app_tail, Permutation_app_comm.
  - destruct IH as (N & L & G & W & P). destruct (library_det Hord A m Hc _ _ _ E) as (N' & L' & U & G' & W' & -> & P'). split; [lia|].
    exists (L ++ L'). split; [rewrite G', G, map_app; reflexivity|]. split; [apply Forall_app; auto|]. cbn [app] in P'.
    rewrite outs_app. replace (next b' - 1) with ((next b - 1) + (next b' - next b)) by lia. rewrite seq_app. replace (1 + (next b - 1)) with (next b) by lia.
    rewrite app_assoc, P. apply Permutation_app_head. exact P'.
Qed.
Lemma program_ready (Hord : (2 <= order)%Z) ws b v : program ws b -> (forall k, m_get k v <> None -> k < next b -> k = ONE \/ In k ws) ->
  exists L, generators b = map fst L /\ ready L v /\ Permutation (ws ++ outs L) (seq 1 (next b - 1)).
Proof.
  intros Hp Hv. destruct (program_origin Hord ws b Hp) as (N & L & G & W & P). exists L. split; [exact G|]. split; [|exact P].
  assert (ND : NoDup (ws ++ outs L)) by (eapply Permutation_NoDup; [apply Permutation_sym, P|apply seq_NoDup]).
  destruct (NoDup_app_parts _ _ ND) as (_ & N2 & N3). split; [exact W|]. split; [exact N2|]. intros k Hk.
  assert (R : 1 <= k < next b).
  { assert (I : In k (seq 1 (next b - 1))) by (eapply Permutation_in; [exact P|apply in_or_app; auto]). apply in_seq in I. lia. }
  destruct (m_get k v) as [x|] eqn:E; [|reflexivity]. exfalso. destruct (Hv k) as [->|I]; [congruence|lia|unfold ONE in R; lia|]. exact (N3 k I Hk).
Qed.
End Det.

(** Every wire but the constant one is either a wire the user asked for or set by exactly one generator, never both: [os] lists the wires each
    generator sets.  [writes]: the generator reads nothing but its declared inputs, and unless it panics it sets exactly these wires and leaves all
    others as they are; it always stops (what it does when one of its wires already has a value is C90). *)
Theorem C76_one_origin : forall (F : Field), (2 <= order)%Z -> forall ws b, program ws b ->
  exists os, Forall2 (fun g o => writes (g_inputs g) o (g_run g)) (generators b) os /\ Permutation (ws ++ concat os) (seq 1 (next b - 1)).
Proof.
  intros F Hord ws b Hp. destruct (program_origin Hord ws b Hp) as (N & L & G & W & P). exists (map snd L). split; [|exact P]. rewrite G. clear - W.
  induction W; cbn; constructor; assumption.
Qed.
Print Assumptions C76_one_origin.

(** When only wires of the user (and the constant one) are given values, the outcome is the same for every order of the generators. *)
Theorem C76_any_order : forall (F : Field), (2 <= order)%Z -> forall ws b, program ws b ->
  forall v, (forall k, m_get k v <> None -> k < next b -> k = ONE \/ In k ws) -> forall gs, Permutation (generators b) gs ->
  same_outcome (execute (build b) v) (execute (mkGadget (constraints b) gs) v).
Proof.
  intros F Hord ws b Hp v Hv gs Pg. destruct (program_ready Hord ws b v Hp Hv) as (L & G & R & P). rewrite G in Pg.
  apply Permutation_sym, Permutation_map_inv in Pg. destruct Pg as (L' & -> & PL). unfold build. rewrite G. apply ready_confluent; assumption.
Qed.
Print Assumptions C76_any_order.

(** A witness generation that succeeds gives every wire a value and leaves the given ones alone. *)
Theorem C76_all_wires_set : forall (F : Field), (2 <= order)%Z -> forall ws b, program ws b ->
  forall v ok v', (forall k, m_get k v <> None -> k < next b -> k = ONE \/ In k ws) -> execute (build b) v = Ok (ok, v') ->
  (forall k, k = ONE \/ In k ws \/ next b <= k -> m_get k v' = m_get k v) /\
  ((forall k, k = ONE \/ In k ws -> m_get k v <> None) -> forall k, k < next b -> m_get k v' <> None).
Proof.
  intros F Hord ws b Hp v ok v' Hv E. destruct (program_ready Hord ws b v Hp Hv) as (L & G & R & P). unfold build in E. rewrite G in E.
  destruct (execute_sets L _ v ok v' R E) as [I1 I2].
  assert (ND : NoDup (ws ++ outs L)) by (eapply Permutation_NoDup; [apply Permutation_sym, P|apply seq_NoDup]).
  destruct (NoDup_app_parts _ _ ND) as (_ & _ & N3).
  assert (RG : forall k, In k (outs L) -> 1 <= k < next b).
  { intros k Hk. assert (I : In k (seq 1 (next b - 1))) by (eapply Permutation_in; [exact P|apply in_or_app; auto]). apply in_seq in I. lia. }
  assert (H1 : forall k, k = ONE \/ In k ws \/ next b <= k -> m_get k v' = m_get k v).
  { intros k Hk. apply I2. intro I. destruct (RG k I). destruct Hk as [->|[Hk|Hk]]; [unfold ONE in *; lia|exact (N3 k Hk I)|lia]. }
  split; [exact H1|]. intros Hg k Hk. destruct k as [|k]; [rewrite H1 by (left; reflexivity); apply Hg; left; reflexivity|].
  assert (I : In (S k) (ws ++ outs L)) by (eapply Permutation_in; [apply Permutation_sym, P|apply in_seq; lia]). apply in_app_or in I. destruct I as [I|I].
  - rewrite H1 by auto. apply Hg. auto.
  - apply I1, I.
Qed.
Print Assumptions C76_all_wires_set.

(** Two wires of the user, a comparison of their product with the first, and a permutation check: 2 wires given, all others computed. *)
Example C76_example : let F : Field := F97 in
  exists b, program [1; 2] b /\
    match execute (build b) [(0, 1%Z); (1, 5%Z); (2, 7%Z)], execute (mkGadget (constraints b) (rev (generators b))) [(0, 1%Z); (1, 5%Z); (2, 7%Z)] with
    | Ok (ok1, v1), Ok (ok2, v2) => ok1 = true /\ ok2 = true /\ map (fun k => m_get k v1) (seq 0 (next b)) = map (fun k => m_get k v2) (seq 0 (next b)) /\
        10 < next b /\ 3 < length (generators b)
    | _, _ => False
    end.
Proof.
  intro F.
  set (m := p <- product (e_wire 1) (e_wire 2) ;; q <- inverse p ;; _ <- g_equal p (e_wire 1) ;; assert_permutation [p; q; e_wire 1] [q; e_wire 1; p]).
  assert (K : match m (mkB 3 [] []) with Ok _ => true | _ => false end = true) by (vm_compute; reflexivity).
  destruct (m (mkB 3 [] [])) as [[r b]| |] eqn:E; [|discriminate K|discriminate K]. clear K.
  exists b. split.
  - apply (p_call [1; 2] (mkB 3 [] []) unit m r b).
    + apply (p_source [] b_new _ (b_wires 2) (fun ks => ks) [1; 2]); [apply p_new|apply src_wires|reflexivity].
    + unfold m. apply l_then; [apply l_product|intro p]. apply l_then; [apply l_inverse|intro q]. apply l_then; [apply l_equal|intro]. apply l_assert_permutation.
    + exact E.
  - assert (Eb : b = match m (mkB 3 [] []) with Ok (_, x) => x | _ => b_new end) by (rewrite E; reflexivity). rewrite Eb. clear E Eb.
    vm_compute. repeat split; lia.
Qed.
