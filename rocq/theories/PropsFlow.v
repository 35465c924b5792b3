(** C77: generators read only wires handed out before those they set, so witness generation never gets stuck. *)
From Coq Require Import ZArith List Bool Arith Lia Permutation.
From Verif Require Import Base FieldM FieldP ExprM BuilderM GadgetsM CryptoM CurveM WaksmanM Spec MonoP LocalP HonestP ExecP CoreP Demo DetP FlowP PropsBuilder.
Import ListNotations.
Open Scope nat_scope.

(** Library calls on expressions over wires already handed out ([n] of them), and what their results are over: [scoped n m Q].
    [below n e]: all wires of e are < n; [belows]: of all expressions in a list; [below_e]: of both coordinates. *)
Inductive scoped {F : Field} : forall {A : Type}, nat -> B A -> (nat -> A -> Prop) -> Prop :=
| sc_pure A n (o : outcome A) (Q : nat -> A -> Prop) : (forall n' a, n <= n' -> o = Ok a -> Q n' a) -> scoped n (blift o) Q
| sc_then A C n (m : B A) (k : A -> B C) Q Q' : scoped n m Q -> (forall n' a, 1 <= n' -> n <= n' -> Q n' a -> scoped n' (k a) Q') -> scoped n (bbind m k) Q'
| sc_weaken A n (m : B A) (Q Q' : nat -> A -> Prop) : scoped n m Q -> (forall n' a, n <= n' -> Q n' a -> Q' n' a) -> scoped n m Q'
| sc_assert_product n x y z : below n x -> below n y -> below n z -> scoped n (assert_product x y z) (fun _ _ => True)
| sc_assert_boolean n x : below n x -> scoped n (assert_boolean x) below
| sc_assert_equal n x y : below n x -> below n y -> scoped n (assert_equal x y) (fun _ _ => True)
| sc_assert_zero n x : below n x -> scoped n (assert_zero x) (fun _ _ => True)
| sc_assert_true n x : below n x -> scoped n (assert_true x) (fun _ _ => True)
| sc_assert_false n x : below n x -> scoped n (assert_false x) (fun _ _ => True)
| sc_product n x y : below n x -> below n y -> scoped n (product x y) below
| sc_exponentiation n x p : below n x -> scoped n (exponentiation x p) below
| sc_inverse n x : below n x -> scoped n (inverse x) below
| sc_assert_nonzero n x : below n x -> scoped n (assert_nonzero x) (fun _ _ => True)
| sc_assert_nonequal n x y : below n x -> below n y -> scoped n (assert_nonequal x y) (fun _ _ => True)
| sc_nonzero n x : below n x -> scoped n (nonzero x) below
| sc_not n x : below n x -> scoped n (b_not x) below
| sc_and n x y : below n x -> below n y -> scoped n (b_and x y) below
| sc_or n x y : below n x -> below n y -> scoped n (b_or x y) below
| sc_xor n x y : below n x -> below n y -> scoped n (b_xor x y) below
| sc_zero n x : below n x -> scoped n (g_zero x) below
| sc_equal n x y : below n x -> below n y -> scoped n (g_equal x y) below
| sc_selection n c x y : below n c -> below n x -> below n y -> scoped n (selection c x y) below
| sc_inverse_or_zero n x : below n x -> scoped n (inverse_or_zero x) below
| sc_quotient n x y : below n x -> below n y -> scoped n (quotient x y) below
| sc_quotient_unsafe n x y : below n x -> below n y -> scoped n (quotient_unsafe x y) below
| sc_split n x : below n x -> scoped n (split x) belows
| sc_split_allowing_ambiguity n x : below n x -> scoped n (split_allowing_ambiguity x) belows
| sc_split_bounded n x k : below n x -> scoped n (split_bounded x k) belows
| sc_cmp_binary n x y less strict : belows n x -> belows n y -> scoped n (cmp_binary x y less strict) below
| sc_lt_binary n x y : belows n x -> belows n y -> scoped n (assert_lt_binary x y) (fun _ _ => True)
| sc_le_binary n x y : belows n x -> belows n y -> scoped n (assert_le_binary x y) (fun _ _ => True)
| sc_gt_binary n x y : belows n x -> belows n y -> scoped n (assert_gt_binary x y) (fun _ _ => True)
| sc_ge_binary n x y : belows n x -> belows n y -> scoped n (assert_ge_binary x y) (fun _ _ => True)
| sc_cmp n x y less strict : below n x -> below n y -> scoped n (cmp x y less strict) below
| sc_lt n x y : below n x -> below n y -> scoped n (assert_lt x y) (fun _ _ => True)
| sc_le n x y : below n x -> below n y -> scoped n (assert_le x y) (fun _ _ => True)
| sc_gt n x y : below n x -> below n y -> scoped n (assert_gt x y) (fun _ _ => True)
| sc_ge n x y : below n x -> below n y -> scoped n (assert_ge x y) (fun _ _ => True)
| sc_modulus n x y : below n x -> below n y -> scoped n (modulus x y) below
| sc_divides n x y : below n x -> below n y -> scoped n (divides x y) below
| sc_binary_summation n ts : Forall (belows n) ts -> scoped n (binary_summation ts) belows
| sc_summation_ignoring_overflow n ts : Forall (belows n) ts -> scoped n (binary_summation_ignoring_overflow ts) belows
| sc_summation_asserting_no_overflow n ts : Forall (belows n) ts -> scoped n (binary_summation_asserting_no_overflow ts) belows
| sc_binary_assert_zero n x : belows n x -> scoped n (binary_assert_zero x) (fun _ _ => True)
| sc_bitwise_not n x : belows n x -> scoped n (bitwise_not x) belows
| sc_bitwise_and n x y : belows n x -> belows n y -> scoped n (bitwise_and x y) belows
| sc_bitwise_or n x y : belows n x -> belows n y -> scoped n (bitwise_or x y) belows
| sc_bitwise_xor n x y : belows n x -> belows n y -> scoped n (bitwise_xor x y) belows
| sc_rotate_inc n x k : belows n x -> scoped n (rotate_inc x k) belows
| sc_rotate_dec n x k : belows n x -> scoped n (rotate_dec x k) belows
| sc_shift_inc n x k : belows n x -> scoped n (shift_inc x k) belows
| sc_shift_dec n x k : belows n x -> scoped n (shift_dec x k) belows
| sc_random_access n items i : belows n items -> below n i -> scoped n (random_access items i) below
| sc_random_access_binary n items bits : belows n items -> belows n bits -> scoped n (random_access_binary items bits) below
| sc_assert_permutation n a b : belows n a -> belows n b -> scoped n (assert_permutation a b) (fun _ _ => True)
| sc_sort_ascending n l : belows n l -> scoped n (sort_ascending l) belows
| sc_sort_descending n l : belows n l -> scoped n (sort_descending l) belows
| sc_monomial n k x : below n x -> scoped n (permute (monomial k) x) below
| sc_monomial_inverse n k x : below n x -> scoped n (p_inverse (monomial k) x) below
| sc_mimc_encrypt n cs k key x : below n key -> below n x -> scoped n (mimc_encrypt cs (monomial k) key x) below
| sc_mimc_decrypt n cs k key x : below n key -> below n x -> scoped n (mimc_decrypt cs (monomial k) key x) below
| sc_davies_meyer n c x y : (forall n' k i, below n' k -> below n' i -> scoped n' (encrypt c k i) below) -> below n x -> below n y -> scoped n (davies_meyer c x y) below
| sc_miyaguchi_preneel n c x y : (forall n' k i, below n' k -> below n' i -> scoped n' (encrypt c k i) below) -> below n x -> below n y -> scoped n (miyaguchi_preneel c x y) below
| sc_merkle_damgard n iv m blocks : (forall n' x y, below n' x -> below n' y -> scoped n' (m x y) below) -> belows n blocks -> scoped n (merkle_damgard iv m blocks) below
| sc_merkle_tree_root n m leaf path : (forall n' x y, below n' x -> below n' y -> scoped n' (m x y) below) -> below n leaf -> belows n (prefix path) -> belows n (siblings path) -> scoped n (merkle_tree_root m leaf path) below
| sc_assert_membership n m leaf root path : (forall n' x y, below n' x -> below n' y -> scoped n' (m x y) below) -> below n leaf -> below n root -> belows n (prefix path) -> belows n (siblings path) -> scoped n (assert_merkle_tree_membership m leaf root path) (fun _ _ => True)
| sc_sponge n s inputs k : (forall n' xs, belows n' xs -> scoped n' (mp_permute (sp_perm s) xs) belows) -> belows n inputs -> scoped n (sponge_evaluate s inputs k) belows
| sc_poseidon n p xs : belows n xs -> scoped n (poseidon_permute p xs) belows
| sc_rescue n r xs : belows n xs -> scoped n (rescue_permute r xs) belows
| sc_ed_expr_new n C x y : below n x -> below n y -> scoped n (ed_expr_new C x y) below_e
| sc_ed_add n C l r : below_e n l -> below_e n r -> scoped n (ed_add_expressions C l r) below_e
| sc_ed_double n C p : below_e n p -> scoped n (ed_double_expression C p) below_e
| sc_mul_boolean n C p b : below_e n p -> below n b -> scoped n (mul_boolean_expression (edwards_group C) p b) below_e
| sc_mul_scalar n C p e : below_e n p -> below n e -> scoped n (mul_scalar_expression (edwards_group C) p e) below_e
| sc_schnorr n C gen sg msg pk (m : compression) : (forall n' x y, below n' x -> below n' y -> scoped n' (m x y) below) -> below_e n sg -> below n msg -> below_e n pk -> scoped n (schnorr_verify (mkCyclic (edwards_group C) gen) sg msg pk m) (fun _ _ => True).

(** A program: wires asked for by the user ([ws]) and library calls on wires handed out before, in any order. *)
Inductive scoped_program {F : Field} : list wire -> builder -> Prop :=
| sp_new : scoped_program [] b_new
| sp_source ws b A (m : B A) f r b' : scoped_program ws b -> source m f -> m b = Ok (r, b') -> scoped_program (ws ++ f r) b'
| sp_call ws b A (m : B A) Q r b' : scoped_program ws b -> scoped (next b) m Q -> m b = Ok (r, b') -> scoped_program ws b'.

Create HintDb flowl discriminated.
#[local] Hint Constants Opaque : flowl.
#[local] Hint Resolve fl_assert_product fl_assert_boolean fl_assert_equal fl_assert_zero fl_assert_true fl_assert_false fl_product fl_exponentiation fl_inverse
  fl_assert_nonzero fl_assert_nonequal fl_nonzero fl_not fl_and fl_or fl_xor fl_zero fl_equal fl_selection fl_inverse_or_zero fl_quotient
  fl_quotient_unsafe fl_split fl_split_allowing_ambiguity fl_split_bounded fl_cmp_binary fl_lt_binary fl_le_binary fl_gt_binary fl_ge_binary fl_cmp
  fl_lt fl_le fl_gt fl_ge fl_modulus fl_divides fl_binary_summation fl_summation_ignoring_overflow fl_summation_asserting_no_overflow
  fl_binary_assert_zero fl_bitwise_not fl_bitwise_and fl_bitwise_or fl_bitwise_xor fl_rotate_inc fl_rotate_dec fl_shift_inc fl_shift_dec
  fl_random_access fl_random_access_binary fl_monomial fl_monomial_inverse fl_mimc_encrypt fl_mimc_decrypt fl_poseidon fl_rescue fl_ed_expr_new
  fl_ed_add fl_ed_double fl_mul_boolean fl_mul_scalar : flowl.
Section Flow.
Context {F : Field}.
Lemma scoped_fl (Hord : (2 <= order)%Z) A n (m : B A) Q : scoped n m Q -> fl n m Q.
Proof.
  induction 1; try solve [auto with flowl nocore].
  - apply fl_lift. assumption.
  - eapply fl_bind; eassumption.
  - eapply fl_weaken; eassumption.
  - apply fl_assert_permutation; assumption.
  - apply fl_sort_ascending; assumption.
  - apply fl_sort_descending; assumption.
  - apply fl_monomial_inverse; assumption.
  - apply fl_davies_meyer; assumption.
  - apply fl_miyaguchi_preneel; assumption.
  - apply fl_merkle_damgard; assumption.
  - apply fl_merkle_tree_root; assumption.
  - apply fl_assert_membership; assumption.
  - apply fl_sponge; assumption.
  - apply fl_schnorr; assumption.
Qed.
Lemma source_flow A n (m : B A) f : source m f -> flow n [] m (fun _ r U' => Permutation U' (f r)).
Proof.
  destruct 1.
  - eapply flow_weaken; [apply flow_wire|]. cbv beta. intros n' w U _ [_ ->]. reflexivity.
  - eapply flow_weaken; [apply flow_wires|]. cbv beta. intros n' w U _ (_ & _ & P). rewrite app_nil_r in P. exact P.
  - eapply flow_weaken; [apply flow_boolean_wire|]. cbv beta. intros n' w U _ [_ ->]. reflexivity.
  - eapply flow_weaken; [apply flow_binary_wire|]. cbv beta. intros n' w U _ (_ & _ & P). rewrite app_nil_r in P. exact P.
Qed.
Lemma c_below_le n n' cs : Forall (c_below n) cs -> n <= n' -> Forall (c_below n') cs.
Proof. intros H L. eapply Forall_impl; [|exact H]. intros c (H1 & H2 & H3). repeat split; eapply below_le; eauto. Qed.
Lemma program_flow (Hord : (2 <= order)%Z) ws b : scoped_program ws b -> 1 <= next b /\
  exists L, generators b = map fst L /\ flows (next b) L /\ Forall (c_below (next b)) (constraints b) /\ Permutation (ws ++ outs L) (seq 1 (next b - 1)).
Proof.
  induction 1 as [|ws b A m f r b' _ IH Hs E|ws b A m Q r b' _ IH Hc E].
  - split; [cbn; lia|]. exists []. split; [reflexivity|]. repeat split; constructor.
  - destruct IH as (N & L & G & W & C & P). destruct (source_flow A (next b) m f Hs _ _ _ N (le_n _) E) as (N' & L' & U & cs & G' & W' & C' & B' & PU & P'). split; [lia|].
    exists (L ++ L'). split; [rewrite G', G, map_app; reflexivity|]. split; [apply Forall_app; split; [eapply flows_le; eauto|exact W']|].
    split; [rewrite C'; apply Forall_app; split; [eapply c_below_le; eauto|exact B']|]. cbn [app] in P'. rewrite PU in P'.
    rewrite outs_app. replace (next b' - 1) with ((next b - 1) + (next b' - next b)) by lia. rewrite seq_app. replace (1 + (next b - 1)) with (next b) by lia.
    rewrite <- P, <- P', <- !app_assoc. apply Permutation_app_head. rewrite !app_assoc. apply Permutation_app_tail, Permutation_app_comm.
  - destruct IH as (N & L & G & W & C & P). destruct (scoped_fl Hord A _ m Q Hc _ _ _ N (le_n _) E) as (N' & L' & U & cs & G' & W' & C' & B' & [-> _] & P'). split; [lia|].
    exists (L ++ L'). split; [rewrite G', G, map_app; reflexivity|]. split; [apply Forall_app; split; [eapply flows_le; eauto|exact W']|].
    split; [rewrite C'; apply Forall_app; split; [eapply c_below_le; eauto|exact B']|]. cbn [app] in P'.
    rewrite outs_app. replace (next b' - 1) with ((next b - 1) + (next b' - next b)) by lia. rewrite seq_app. replace (1 + (next b - 1)) with (next b) by lia.
    rewrite app_assoc, P. apply Permutation_app_head. exact P'.
Qed.
End Flow.

(** The wires each generator sets ([os], as in C76) all come after the wires it reads, and every wire in a constraint has been handed out. *)
Theorem C77_acyclic : forall (F : Field), (2 <= order)%Z -> forall ws b, scoped_program ws b ->
  exists os, Permutation (ws ++ concat os) (seq 1 (next b - 1)) /\
    Forall2 (fun g o => writes (g_inputs g) o (g_run g) /\ forall d, In d (g_inputs g) -> d < next b /\ forall k, In k o -> d < k) (generators b) os /\
    Forall (fun c => forall k, In k (e_deps (c_a c) ++ e_deps (c_b c) ++ e_deps (c_c c)) -> k < next b) (constraints b).
Proof.
  intros F Hord ws b Hp. destruct (program_flow Hord ws b Hp) as (N & L & G & W & C & P). exists (map snd L). split; [exact P|]. split.
  - rewrite G. clear - W. induction W; cbn; constructor; assumption.
  - eapply Forall_impl; [|exact C]. intros c (H1 & H2 & H3) k Hk. rewrite !in_app_iff in Hk. destruct Hk as [K|[K|K]]; [apply H1, K|apply H2, K|apply H3, K].
Qed.
Print Assumptions C77_acyclic.

(** With a value for every wire of the user and the constant one, and none for the others, witness generation either succeeds and sets every wire,
    or panics because some generator panics on inputs that all have values.  It is never left with generators whose inputs stay unknown, and no
    constraint is left without values. *)
Theorem C77_never_stuck : forall (F : Field), (2 <= order)%Z -> forall ws b, scoped_program ws b ->
  forall v, (forall k, k < next b -> (m_get k v <> None <-> k = ONE \/ In k ws)) ->
  (exists ok v', execute (build b) v = Ok (ok, v') /\ forall k, k < next b -> m_get k v' <> None) \/
  (execute (build b) v = Panic /\ exists ran g rest v1, Permutation (generators b) (ran ++ g :: rest) /\ runs_in_order ran v v1 /\
     (forall k, In k (g_inputs g) -> m_get k v1 <> None) /\ g_run g v1 = Panic).
Proof.
  intros F Hord ws b Hp v Hv. destruct (program_flow Hord ws b Hp) as (N & L & G & W & C & P). unfold build. rewrite G.
  assert (ND : NoDup (ws ++ outs L)) by (eapply Permutation_NoDup; [apply Permutation_sym, P|apply seq_NoDup]).
  destruct (NoDup_app_parts _ _ ND) as (_ & N2 & N3). apply execute_flow; [exact W|exact C| |].
  - split; [eapply Forall_impl; [|exact W]; intros p [Hw _]; exact Hw|]. split; [exact N2|]. intros k Hk.
    assert (R : 1 <= k < next b).
    { assert (I : In k (seq 1 (next b - 1))) by (eapply Permutation_in; [exact P|apply in_or_app; auto]). apply in_seq in I. lia. }
    destruct (m_get k v) as [x|] eqn:E; [|reflexivity]. exfalso. destruct (proj1 (Hv k (proj2 R))) as [->|I]; [congruence|unfold ONE in R; lia|]. exact (N3 k I Hk).
  - intros k Hk. destruct k as [|k]; [right; apply Hv; auto|].
    assert (I : In (S k) (ws ++ outs L)) by (eapply Permutation_in; [apply Permutation_sym, P|apply in_seq; lia]). apply in_app_or in I. destruct I as [I|I]; [right; apply Hv; auto|left; exact I].
Qed.
Print Assumptions C77_never_stuck.

(** Two wires of the user; their product, its inverse, a comparison and a permutation check.  With 5 and 7 given the generators run through; with 0 and 7
    the generator of the inverse panics. *)
Example C77_example : let F : Field := F97 in
  exists b, scoped_program [1; 2] b /\ 10 < next b /\ 3 < length (generators b) /\
    match execute (build b) [(0, 1%Z); (1, 5%Z); (2, 7%Z)] with Ok (ok, v') => ok = true /\ forallb (fun k => match m_get k v' with Some _ => true | None => false end) (seq 0 (next b)) = true | _ => False end /\
    execute (build b) [(0, 1%Z); (1, 0%Z); (2, 7%Z)] = Panic.
Proof.
  intro F.
  set (m := p <- product (e_wire 1) (e_wire 2) ;; q <- inverse p ;; _ <- g_equal p (e_wire 1) ;; assert_permutation [p; q; e_wire 1] [q; e_wire 1; p]).
  assert (K : match m (mkB 3 [] []) with Ok _ => true | _ => false end = true) by (vm_compute; reflexivity).
  destruct (m (mkB 3 [] [])) as [[r b]| |] eqn:E; [|discriminate K|discriminate K]. clear K.
  exists b. split.
  - apply (sp_call [1; 2] (mkB 3 [] []) unit m (fun _ _ => True) r b).
    + apply (sp_source [] b_new _ (b_wires 2) (fun ks => ks) [1; 2]); [apply sp_new|apply src_wires|reflexivity].
    + unfold m. cbn [next]. assert (W1 : forall n, 3 <= n -> below n (e_wire 1)) by (intros; apply below_wire; lia). assert (W2 : forall n, 3 <= n -> below n (e_wire 2)) by (intros; apply below_wire; lia).
      eapply sc_then; [apply sc_product; auto|cbv beta; intros n1 p P1 L1 Hp]. eapply sc_then; [apply sc_inverse; auto|cbv beta; intros n2 q P2 L2 Hq].
      assert (below n2 p) by (eapply below_le; eauto). eapply sc_then; [apply sc_equal; [auto|apply W1; lia]|cbv beta; intros n3 t P3 L3 Ht].
      assert (below n3 p) by (eapply below_le; [|exact L3]; auto). assert (below n3 q) by (eapply below_le; eauto). assert (below n3 (e_wire 1)) by (apply W1; lia).
      apply sc_assert_permutation; repeat constructor; assumption.
    + exact E.
  - assert (Eb : b = match m (mkB 3 [] []) with Ok (_, x) => x | _ => b_new end) by (rewrite E; reflexivity). rewrite Eb. clear E Eb.
    vm_compute. repeat split; lia.
Qed.
