(** C96: how many passes over its generators an execution makes. *)
From Coq Require Import ZArith List Bool Arith Lia Permutation.
From Verif Require Import Base FieldM FieldP ExprM BuilderM GadgetsM CryptoM CurveM WaksmanM Spec ExprP MonoP LocalP HonestP ExecP CoreP RefuseP Demo DetP TickP TickCallsP PropsBuilder.
Import ListNotations.
Open Scope nat_scope.

(** Library calls with their lags: [delayed K j m Q] for a call [m] on expressions over the wires [K], known when its generators first run; [Q] says over which
    wires its results are, also known then.  Lag 0: all its generators run in the first pass.  A late generator, registered after generators that read what it
    sets, delays those by a pass but not itself: the generators of [modulus], of [monomial_inverse], of sorting, and of every layer of a permutation network.  The lag
    of calls in sequence is the largest of theirs: what one call returns is set by generators that run in the first pass.
    [over K e]: the wires of e are in K; [overs]: of all expressions in a list; [kn_e]: of both coordinates; [sub]: inclusion. *)
Inductive delayed {F : Field} : forall {A : Type}, (nat -> Prop) -> nat -> B A -> ((nat -> Prop) -> A -> Prop) -> Prop :=
| dl_pure A (K : nat -> Prop) (o : outcome A) (Q : (nat -> Prop) -> A -> Prop) : (forall K' a, sub K K' -> o = Ok a -> Q K' a) -> delayed K 0 (blift o) Q
| dl_then A C (K : nat -> Prop) j (m : B A) (k : A -> B C) Q Q' : delayed K j m Q ->
    (forall (K' : nat -> Prop) a, K' ONE -> sub K K' -> Q K' a -> delayed K' j (k a) Q') -> delayed K j (bbind m k) Q'
| dl_weaken A (K : nat -> Prop) j j' (m : B A) (Q Q' : (nat -> Prop) -> A -> Prop) : delayed K j m Q -> j <= j' -> (forall K' a, sub K K' -> Q K' a -> Q' K' a) -> delayed K j' m Q'
| dl_assert_product K x y z : over K x -> over K y -> over K z -> delayed K 0 (assert_product x y z) (fun _ _ => True)
| dl_assert_boolean K x : over K x -> delayed K 0 (assert_boolean x) over
| dl_assert_equal K x y : over K x -> over K y -> delayed K 0 (assert_equal x y) (fun _ _ => True)
| dl_assert_zero K x : over K x -> delayed K 0 (assert_zero x) (fun _ _ => True)
| dl_assert_true K x : over K x -> delayed K 0 (assert_true x) (fun _ _ => True)
| dl_assert_false K x : over K x -> delayed K 0 (assert_false x) (fun _ _ => True)
| dl_product K x y : over K x -> over K y -> delayed K 0 (product x y) over
| dl_exponentiation K x p : over K x -> delayed K 0 (exponentiation x p) over
| dl_inverse K x : over K x -> delayed K 0 (inverse x) over
| dl_assert_nonzero K x : over K x -> delayed K 0 (assert_nonzero x) (fun _ _ => True)
| dl_assert_nonequal K x y : over K x -> over K y -> delayed K 0 (assert_nonequal x y) (fun _ _ => True)
| dl_nonzero K x : over K x -> delayed K 0 (nonzero x) over
| dl_not K x : over K x -> delayed K 0 (b_not x) over
| dl_and K x y : over K x -> over K y -> delayed K 0 (b_and x y) over
| dl_or K x y : over K x -> over K y -> delayed K 0 (b_or x y) over
| dl_xor K x y : over K x -> over K y -> delayed K 0 (b_xor x y) over
| dl_zero K x : over K x -> delayed K 0 (g_zero x) over
| dl_equal K x y : over K x -> over K y -> delayed K 0 (g_equal x y) over
| dl_selection K c x y : over K c -> over K x -> over K y -> delayed K 0 (selection c x y) over
| dl_inverse_or_zero K x : over K x -> delayed K 0 (inverse_or_zero x) over
| dl_quotient K x y : over K x -> over K y -> delayed K 0 (quotient x y) over
| dl_quotient_unsafe K x y : over K x -> over K y -> delayed K 0 (quotient_unsafe x y) over
| dl_split K x : over K x -> delayed K 0 (split x) overs
| dl_split_allowing_ambiguity K x : over K x -> delayed K 0 (split_allowing_ambiguity x) overs
| dl_split_bounded K x k : over K x -> delayed K 0 (split_bounded x k) overs
| dl_cmp_binary K x y less strict : overs K x -> overs K y -> delayed K 0 (cmp_binary x y less strict) over
| dl_lt_binary K x y : overs K x -> overs K y -> delayed K 0 (assert_lt_binary x y) (fun _ _ => True)
| dl_le_binary K x y : overs K x -> overs K y -> delayed K 0 (assert_le_binary x y) (fun _ _ => True)
| dl_gt_binary K x y : overs K x -> overs K y -> delayed K 0 (assert_gt_binary x y) (fun _ _ => True)
| dl_ge_binary K x y : overs K x -> overs K y -> delayed K 0 (assert_ge_binary x y) (fun _ _ => True)
| dl_cmp K x y less strict : over K x -> over K y -> delayed K 0 (cmp x y less strict) over
| dl_lt K x y : over K x -> over K y -> delayed K 0 (assert_lt x y) (fun _ _ => True)
| dl_le K x y : over K x -> over K y -> delayed K 0 (assert_le x y) (fun _ _ => True)
| dl_gt K x y : over K x -> over K y -> delayed K 0 (assert_gt x y) (fun _ _ => True)
| dl_ge K x y : over K x -> over K y -> delayed K 0 (assert_ge x y) (fun _ _ => True)
| dl_modulus K x y : over K x -> over K y -> delayed K 1 (modulus x y) over
| dl_divides K x y : over K x -> over K y -> delayed K 1 (divides x y) over
| dl_binary_summation K ts : Forall (overs K) ts -> delayed K 0 (binary_summation ts) overs
| dl_summation_ignoring_overflow K ts : Forall (overs K) ts -> delayed K 0 (binary_summation_ignoring_overflow ts) overs
| dl_summation_asserting_no_overflow K ts : Forall (overs K) ts -> delayed K 0 (binary_summation_asserting_no_overflow ts) overs
| dl_binary_assert_zero K x : overs K x -> delayed K 0 (binary_assert_zero x) (fun _ _ => True)
| dl_bitwise_not K x : overs K x -> delayed K 0 (bitwise_not x) overs
| dl_bitwise_and K x y : overs K x -> overs K y -> delayed K 0 (bitwise_and x y) overs
| dl_bitwise_or K x y : overs K x -> overs K y -> delayed K 0 (bitwise_or x y) overs
| dl_bitwise_xor K x y : overs K x -> overs K y -> delayed K 0 (bitwise_xor x y) overs
| dl_rotate_inc K x k : overs K x -> delayed K 0 (rotate_inc x k) overs
| dl_rotate_dec K x k : overs K x -> delayed K 0 (rotate_dec x k) overs
| dl_shift_inc K x k : overs K x -> delayed K 0 (shift_inc x k) overs
| dl_shift_dec K x k : overs K x -> delayed K 0 (shift_dec x k) overs
| dl_random_access K items i : overs K items -> over K i -> delayed K 0 (random_access items i) over
| dl_random_access_binary K items bits : overs K items -> overs K bits -> delayed K 0 (random_access_binary items bits) over
| dl_assert_permutation K a b : overs K a -> overs K b -> delayed K (Nat.log2_up (length a)) (assert_permutation a b) (fun _ _ => True)
| dl_sort_ascending K l : overs K l -> delayed K (S (Nat.log2_up (length l))) (sort_ascending l) overs
| dl_sort_descending K l : overs K l -> delayed K (S (Nat.log2_up (length l))) (sort_descending l) overs
| dl_monomial K k x : over K x -> delayed K 0 (permute (monomial k) x) over
| dl_monomial_inverse K k x : over K x -> delayed K 1 (p_inverse (monomial k) x) over
| dl_mimc_encrypt K cs k key x : over K key -> over K x -> delayed K 0 (mimc_encrypt cs (monomial k) key x) over
| dl_mimc_decrypt K cs k key x : over K key -> over K x -> delayed K 1 (mimc_decrypt cs (monomial k) key x) over
| dl_davies_meyer K j c x y : (forall K' k i, over K' k -> over K' i -> delayed K' j (encrypt c k i) over) -> over K x -> over K y -> delayed K j (davies_meyer c x y) over
| dl_miyaguchi_preneel K j c x y : (forall K' k i, over K' k -> over K' i -> delayed K' j (encrypt c k i) over) -> over K x -> over K y -> delayed K j (miyaguchi_preneel c x y) over
| dl_merkle_damgard K j iv m blocks : (forall K' x y, over K' x -> over K' y -> delayed K' j (m x y) over) -> overs K blocks -> delayed K j (merkle_damgard iv m blocks) over
| dl_merkle_tree_root K j m leaf path : (forall K' x y, over K' x -> over K' y -> delayed K' j (m x y) over) -> over K leaf -> overs K (prefix path) -> overs K (siblings path) -> delayed K j (merkle_tree_root m leaf path) over
| dl_assert_membership K j m leaf root path : (forall K' x y, over K' x -> over K' y -> delayed K' j (m x y) over) -> over K leaf -> over K root -> overs K (prefix path) -> overs K (siblings path) -> delayed K j (assert_merkle_tree_membership m leaf root path) (fun _ _ => True)
| dl_sponge K j s inputs k : (forall K' xs, overs K' xs -> delayed K' j (mp_permute (sp_perm s) xs) overs) -> overs K inputs -> delayed K j (sponge_evaluate s inputs k) overs
| dl_poseidon K p xs : overs K xs -> delayed K 0 (poseidon_permute p xs) overs
| dl_rescue K r xs : overs K xs -> delayed K 1 (rescue_permute r xs) overs
| dl_ed_expr_new K C x y : over K x -> over K y -> delayed K 0 (ed_expr_new C x y) kn_e
| dl_ed_add K C l r : kn_e K l -> kn_e K r -> delayed K 0 (ed_add_expressions C l r) kn_e
| dl_ed_double K C p : kn_e K p -> delayed K 0 (ed_double_expression C p) kn_e
| dl_mul_boolean K C p b : kn_e K p -> over K b -> delayed K 0 (mul_boolean_expression (edwards_group C) p b) kn_e
| dl_mul_scalar K C p e : kn_e K p -> over K e -> delayed K 0 (mul_scalar_expression (edwards_group C) p e) kn_e
| dl_schnorr K j C gen sg msg pk (m : compression) : (forall K' x y, over K' x -> over K' y -> delayed K' j (m x y) over) -> kn_e K sg -> over K msg -> kn_e K pk -> delayed K j (schnorr_verify (mkCyclic (edwards_group C) gen) sg msg pk m) (fun _ _ => True).

(** A program: wires asked for by the user ([ws]) and library calls on results of earlier ones, in any order.  [K]: the constant one, wires of the user and wires
    in results of calls; every wire in what a call returns may be added. *)
Inductive delayed_program {F : Field} : list wire -> (nat -> Prop) -> nat -> builder -> Prop :=
| dp_new : delayed_program [] (fun d => d = ONE) 0 b_new
| dp_source ws K j b A (m : B A) f r b' : delayed_program ws K j b -> source m f -> m b = Ok (r, b') -> delayed_program (ws ++ f r) (fun d => K d \/ In d (f r)) j b'
| dp_call ws K K' j b A (m : B A) i Q r b' : delayed_program ws K j b -> delayed K i m Q -> m b = Ok (r, b') -> (forall K1, sub K K1 -> Q K1 r -> sub K' K1) ->
    delayed_program ws (fun d => K d \/ K' d) (Nat.max j i) b'.

(** [n] passes over the generators take the pending ones [gs] and the values [v] to [gs'] and [v']. *)
Inductive passes {F : Field} : nat -> list wgen -> values -> list wgen -> values -> Prop :=
| ps_none gs v : passes 0 gs v gs v
| ps_pass n gs v gs1 v1 pr gs' v' : exec_pass gs v = Ok (gs1, v1, pr) -> passes n gs1 v1 gs' v' -> passes (S n) gs v gs' v'.

Create HintDb lagdb discriminated.
#[local] Hint Constants Opaque : lagdb.
#[local] Hint Resolve t0_assert_product t0_assert_boolean t0_assert_equal t0_assert_zero t0_assert_true t0_assert_false t0_product t0_exponentiation t0_inverse
  t0_assert_nonzero t0_assert_nonequal t0_nonzero t0_not t0_and t0_or t0_xor t0_zero t0_equal t0_selection t0_inverse_or_zero t0_quotient t0_quotient_unsafe
  t0_split t0_split_allowing_ambiguity t0_split_bounded t0_cmp_binary t0_lt_binary t0_le_binary t0_gt_binary t0_ge_binary t0_cmp t0_lt t0_le t0_gt t0_ge
  tk_modulus tk_divides t0_binary_summation t0_summation_ignoring_overflow t0_summation_asserting_no_overflow t0_binary_assert_zero t0_bitwise_not t0_bitwise_and
  t0_bitwise_or t0_bitwise_xor t0_rotate_inc t0_rotate_dec t0_shift_inc t0_shift_dec t0_random_access t0_random_access_binary tk_assert_permutation
  tk_sort_ascending tk_sort_descending t0_monomial tk_monomial_inverse t0_mimc_encrypt tk_mimc_decrypt t0_poseidon tk_rescue t0_ed_expr_new t0_ed_add
  t0_ed_double t0_mul_boolean t0_mul_scalar : lagdb.

Section Passes.
Context {F : Field}.
Lemma delayed_ok (Hord : (2 <= order)%Z) A K k (m : B A) Q : delayed K k m Q -> tk K k m Q.
Proof.
  induction 1; try solve [auto with lagdb nocore]; try solve [match goal with |- tk ?K 0 ?m ?Q => change (t0 K m Q) end; auto with lagdb nocore].
  - apply tk_lift; assumption.
  - eapply tk_bind; [exact IHdelayed|]. exact H1.
  - eapply tk_weaken; eassumption.
  - apply tk_monomial_inverse; assumption.
  - apply tk_davies_meyer; assumption.
  - apply tk_miyaguchi_preneel; assumption.
  - apply tk_merkle_damgard; assumption.
  - apply tk_merkle_tree_root; assumption.
  - apply tk_assert_membership; assumption.
  - apply tk_sponge; assumption.
  - apply tk_schnorr; assumption.
Qed.

(** ** Programs *)
Definition planned (ws : list wire) (K : nat -> Prop) (k : nat) (b : builder) : Prop := K ONE /\
  exists R, generators b = map it_gen R /\ yielding R /\ ranked (fun d => d = ONE \/ In d ws) k R /\ forall d, K d -> d = ONE \/ In d ws \/ In d (firsts R).
Lemma source_tk A (m : B A) f K : source m f -> tk K 0 m (fun _ _ => True).
Proof.
  destruct 1.
  - apply t0_wire.
  - eapply tk_weaken; [apply t0_wires|apply Nat.le_refl|auto].
  - apply tk_silent with (Q := fun _ _ => True). intros b w b' E. cbn in E. inversion E; subst. split; [reflexivity|exact I].
  - eapply tk_weaken; [apply t0_binary_wire|apply Nat.le_refl|auto].
Qed.
Lemma program_planned (Hord : (2 <= order)%Z) ws K k b : delayed_program ws K k b -> planned ws K k b.
Proof.
  induction 1 as [|ws K k b A m f r b' _ (N & R & G & Y & T & C) Hs E|ws K K' k b A m i Q r b' _ (N & R & G & Y & T & C) Hc E HK'].
  - split; [reflexivity|]. exists []. split; [reflexivity|]. split; [constructor|]. split; [apply ranked_nil|]. auto.
  - split; [left; exact N|]. destruct (source_tk A m f K Hs N _ _ _ E) as (R1 & K1 & O & G1 & Y1 & T1 & _ & _ & -> & _).
    exists (R ++ R1). split; [rewrite map_app, G1, G; reflexivity|]. split; [apply Forall_app; auto|]. split.
    + apply ranked_seq; (eapply ranked_weaken; [eassumption| |lia]); cbv beta.
      * intros d [->|Hd]; [auto|right; apply in_or_app; auto].
      * intros d [Hd|[]]. destruct (C d Hd) as [->|[X|X]]; [auto|left; right; apply in_or_app; auto|auto].
    + intros d [Hd|Hd]; rewrite firsts_app, !in_app_iff; [destruct (C d Hd) as [->|[X|X]]; auto|auto].
  - split; [left; exact N|]. destruct (delayed_ok Hord A K i m Q Hc N _ _ _ E) as (R1 & K1 & O & G1 & Y1 & T1 & S1 & C1 & -> & HQ). pose proof (HK' K1 S1 HQ) as S2.
    exists (R ++ R1). split; [rewrite map_app, G1, G; reflexivity|]. split; [apply Forall_app; auto|]. split.
    + apply ranked_seq; (eapply ranked_weaken; [eassumption| |lia]); cbv beta.
      * auto.
      * intros d [Hd|[]]. destruct (C d Hd) as [->|[X|X]]; auto.
    + intros d Hd. rewrite firsts_app, in_app_iff. assert (X : K1 d) by (destruct Hd as [Hd|Hd]; auto). destruct (C1 d X) as [X'|[[]|X']]; [destruct (C d X') as [->|[X2|X2]]; auto|auto].
Qed.
Lemma passes_nil v : forall n, passes n [] v [] v.
Proof. induction n; [constructor|]. econstructor; [reflexivity|exact IHn]. Qed.
Lemma passes_loop : forall n gs v v', exec_loop (S n) gs v = Ok ([], v') -> passes n gs v [] v'.
Proof.
  induction n as [|n IH]; intros gs v v' E; cbn [exec_loop] in E; destruct (exec_pass gs v) as [[[k v1] p]| |] eqn:Ep; try discriminate E; cbn [obind] in E.
  - destruct p; [discriminate E|]. inversion E; subst. destruct (exec_pass_rio _ _ _ _ _ Ep) as (d & _ & _ & H & _). destruct (H eq_refl) as (_ & -> & <- & _). constructor.
  - destruct p.
    + econstructor; [exact Ep|]. apply IH. exact E.
    + inversion E; subst. destruct (exec_pass_rio _ _ _ _ _ Ep) as (d & _ & _ & H & _). destruct (H eq_refl) as (_ & -> & <- & _). apply passes_nil.
Qed.
Lemma passes_panic : forall n gs v, exec_loop (S n) gs v = Panic -> exists i gs1 v1, i <= n /\ passes i gs v gs1 v1 /\ exec_pass gs1 v1 = Panic.
Proof.
  induction n as [|n IH]; intros gs v E; cbn [exec_loop] in E; destruct (exec_pass gs v) as [[[k v1] p]| |] eqn:Ep; try discriminate E; cbn [obind] in E.
  - destruct p; discriminate E.
  - exists 0, gs, v. split; [lia|]. split; [constructor|exact Ep].
  - destruct p; [|discriminate E]. destruct (IH _ _ E) as (i & gs1 & v2 & L & H & P). exists (S i), gs1, v2. split; [lia|]. split; [econstructor; eassumption|exact P].
  - exists 0, gs, v. split; [lia|]. split; [constructor|exact Ep].
Qed.
Lemma loop_agree : forall n m gs v, exec_loop n gs v <> NoFuel -> exec_loop m gs v <> NoFuel -> exec_loop n gs v = exec_loop m gs v.
Proof.
  induction n as [|n IH]; intros [|m] gs v H1 H2; try (exfalso; cbn in *; congruence). cbn [exec_loop] in *.
  destruct (exec_pass gs v) as [[[k v1] p]| |]; try reflexivity. cbn [obind] in *. destruct p; [|reflexivity]. apply IH; assumption.
Qed.
End Passes.

(** [k] is the lag of the program.  Whatever the values given to the user's wires: within [k + 1] passes either a generator panics or all have run. *)
Theorem C96_passes : forall (F : Field), (2 <= order)%Z -> forall ws K k b, delayed_program ws K k b -> forall v, (forall d, d = ONE \/ In d ws -> m_get d v <> None) ->
  (exists i gs v1, i <= k /\ passes i (generators b) v gs v1 /\ exec_pass gs v1 = Panic) \/ exists v', passes (S k) (generators b) v [] v'.
Proof.
  intros F Hord ws K k b Hp v Hv. destruct (program_planned Hord ws K k b Hp) as (N & R & G & Y & T & C). rewrite G.
  destruct (tick_exec _ k R T Y v Hv) as [E|(v' & E & _)]; [left; apply passes_panic, E|right; exists v'; apply passes_loop, E].
Qed.
Print Assumptions C96_passes.

(** [Gadget::execute] makes these passes, and then one that finds nothing to do. *)
Theorem C96_execute : forall (F : Field), (2 <= order)%Z -> forall ws K k b, delayed_program ws K k b -> forall v, (forall d, d = ONE \/ In d ws -> m_get d v <> None) ->
  forall ok v', execute (build b) v = Ok (ok, v') -> passes (S k) (generators b) v [] v'.
Proof.
  intros F Hord ws K k b Hp v Hv ok v' E. destruct (program_planned Hord ws K k b Hp) as (N & R & G & Y & T & C). unfold execute, build in E. cbn [gd_generators gd_constraints] in E.
  destruct (exec_loop (S (length (generators b))) (generators b) v) as [[kept v1]| |] eqn:E1; try discriminate E. cbn [obind] in E.
  destruct (length kept =? 0) eqn:El; [|discriminate E]. cbn [oassert obind] in E. apply Nat.eqb_eq in El. destruct kept; [|discriminate El].
  apply obind_ok in E. destruct E as (ok' & _ & E). inversion E; subst. apply passes_loop.
  destruct (tick_exec _ k R T Y v Hv) as [E2|(v2 & E2 & _)].
  - rewrite <- G in E2. rewrite (loop_agree (S k) (S (length (generators b)))), E1 in E2 by congruence. discriminate E2.
  - rewrite <- G in E2. rewrite (loop_agree (S (S k)) (S (length (generators b)))) by congruence. exact E1.
Qed.
Print Assumptions C96_execute.

(** The first pass sets every wire in the result of a call. *)
Theorem C96_results_first : forall (F : Field), (2 <= order)%Z -> forall ws K k b, delayed_program ws K k b -> forall v, (forall d, d = ONE \/ In d ws -> m_get d v <> None) ->
  forall gs v1 progress, exec_pass (generators b) v = Ok (gs, v1, progress) -> forall d, K d -> m_get d v1 <> None.
Proof.
  intros F Hord ws K k b Hp v Hv gs v1 pr E d Hd. destruct (program_planned Hord ws K k b Hp) as (N & R & G & Y & T & C). rewrite G in E.
  apply (tick_first _ k R T Y v gs v1 pr Hv E). destruct (C d Hd) as [X|[X|X]]; auto.
Qed.
Print Assumptions C96_results_first.

(** With lag 0, the generators run one after another in the order in which they were registered. *)
Theorem C96_one_pass : forall (F : Field), (2 <= order)%Z -> forall ws K b, delayed_program ws K 0 b -> forall v, (forall d, d = ONE \/ In d ws -> m_get d v <> None) ->
  forall ok v', execute (build b) v = Ok (ok, v') -> runs_in_order (generators b) v v'.
Proof.
  intros F Hord ws K b Hp v Hv ok v' E. pose proof (C96_execute F Hord ws K 0 b Hp v Hv ok v' E) as P. inversion P as [|n gs v0 gs1 v1 pr gs' v2 E1 P1]; subst. inversion P1; subst.
  clear - E1. revert v v' pr E1. induction (generators b) as [|g gs IH]; intros v v' pr E; cbn [exec_pass] in E; [inversion E; subst; constructor|].
  destruct (v_contains_all v (g_inputs g)) eqn:Ec.
  - apply obind_ok in E. destruct E as (v1 & E1 & E). apply obind_ok in E. destruct E as ([[k v2] p] & E2 & E). inversion E; subst. econstructor; [apply contains_all_available, Ec|exact E1|]. eapply IH. exact E2.
  - apply obind_ok in E. destruct E as ([[k v2] p] & E2 & E). inversion E.
Qed.
Print Assumptions C96_one_pass.

(** How many generators are still pending after a number of passes. *)
Fixpoint left_after {F : Field} (n : nat) (gs : list wgen) (v : values) : outcome nat :=
  match n with O => Ok (length gs) | S n' => let! '(gs', v', _) := exec_pass gs v in left_after n' gs' v' end.
(** For [n] wires of the user, given 1, 2, ...: those left after each of so many passes, for a call on them. *)
Definition trace {F : Field} {A} (n passes : nat) (m : list expr -> B A) : list (outcome nat) :=
  match m (map e_wire (seq 1 n)) (mkB (S n) [] []) with
  | Ok (_, b) => map (fun i => left_after i (generators b) (map (fun k => (k, Z.of_nat (Nat.max 1 k))) (seq 0 (S n)))) (seq 0 (S passes))
  | _ => []
  end.
(** The lags are reached: 1 for modulus and for decryption of two rounds, 3 and 4 for permutation networks of 5 and 9 items, 3 for sorting 4 items. *)
Example C96_lags_reached : let F : Field := F97 in
  trace 2 2 (fun xs => match xs with [x; y] => modulus x y | _ => blift Panic end) = [Ok 11; Ok 5; Ok 0] /\
  trace 2 2 (fun xs => match xs with [x; y] => mimc_decrypt [3%Z; 4%Z] (monomial 5%Z) x y | _ => blift Panic end) = [Ok 12; Ok 9; Ok 0] /\
  trace 5 4 (fun xs => assert_permutation xs (rev xs)) = [Ok 12; Ok 11; Ok 5; Ok 1; Ok 0] /\
  trace 9 5 (fun xs => assert_permutation xs (rev xs)) = [Ok 29; Ok 28; Ok 18; Ok 7; Ok 1; Ok 0] /\
  trace 4 4 (fun xs => sort_ascending xs) = [Ok 35; Ok 34; Ok 7; Ok 2; Ok 0].
Proof. vm_compute. repeat split. Qed.

(** Two wires of the user; their product, its remainder modulo the first, and a permutation check of four expressions with these results: lag 2, three passes. *)
Example C96_example : let F : Field := F97 in
  exists b K, delayed_program [1; 2] K 2 b /\
    match execute (build b) [(0, 1%Z); (1, 5%Z); (2, 7%Z)] with Ok (ok, _) => ok = true | _ => False end /\
    map (fun i => left_after i (generators b) [(0, 1%Z); (1, 5%Z); (2, 7%Z)]) [0; 1; 2; 3] = [Ok 20; Ok 12; Ok 2; Ok 0].
Proof.
  intro F.
  set (m := p <- product (e_wire 1) (e_wire 2) ;; q <- modulus p (e_wire 1) ;; assert_permutation [p; q; e_wire 1; e_wire 2] [q; e_wire 1; e_wire 2; p]).
  assert (T : match m (mkB 3 [] []) with Ok _ => true | _ => false end = true) by (vm_compute; reflexivity).
  destruct (m (mkB 3 [] [])) as [[r b]| |] eqn:E; [|discriminate T|discriminate T]. clear T.
  exists b, (fun d => (d = ONE \/ In d [1; 2]) \/ False). split.
  - apply (dp_call [1; 2] (fun d => d = ONE \/ In d [1; 2]) (fun _ => False) 0 (mkB 3 [] []) unit m 2 (fun _ _ => True) r b).
    + apply (dp_source [] (fun d => d = ONE) 0 b_new _ (b_wires 2) (fun ks => ks) [1; 2]); [apply dp_new|apply src_wires|reflexivity].
    + unfold m. set (K := fun d => d = ONE \/ In d [1; 2]).
      assert (W1 : forall K', sub K K' -> over K' (e_wire 1)) by (intros K' S; apply kn_wire, S; right; cbn; auto).
      assert (W2 : forall K', sub K K' -> over K' (e_wire 2)) by (intros K' S; apply kn_wire, S; right; cbn; auto).
      eapply dl_then; [eapply dl_weaken; [apply dl_product; [apply W1|apply W2]; apply sub_refl|lia|intros K' a _ H; exact H]|cbv beta; intros K1 p P1 S1 Hp].
      eapply dl_then; [eapply dl_weaken; [apply dl_modulus; [exact Hp|apply W1; exact S1]|lia|intros K' a _ H; exact H]|cbv beta; intros K2 q P2 S2 Hq].
      assert (S : sub K K2) by (eapply sub_trans; eassumption). assert (over K2 p) by (eapply kn_le; eassumption). pose proof (W1 K2 S). pose proof (W2 K2 S).
      apply (dl_assert_permutation K2 [p; q; e_wire 1; e_wire 2]); repeat constructor; assumption.
    + exact E.
    + intros K1 _ _ d [].
  - assert (Eb : b = match m (mkB 3 [] []) with Ok (_, x) => x | _ => b_new end) by (rewrite E; reflexivity). rewrite Eb. clear E Eb.
    vm_compute. repeat split.
Qed.

(** Lag 0: the product of two wires of the user, compared with the first. *)
Example C96_one_pass_example : let F : Field := F97 in
  exists b K, delayed_program [1; 2] K 0 b /\ 5 < length (generators b) /\
    match execute (build b) [(0, 1%Z); (1, 5%Z); (2, 7%Z)] with Ok (ok, _) => ok = true | _ => False end.
Proof.
  intro F.
  set (m := p <- product (e_wire 1) (e_wire 2) ;; assert_lt (e_wire 1) p).
  assert (T : match m (mkB 3 [] []) with Ok _ => true | _ => false end = true) by (vm_compute; reflexivity).
  destruct (m (mkB 3 [] [])) as [[r b]| |] eqn:E; [|discriminate T|discriminate T]. clear T.
  exists b, (fun d => (d = ONE \/ In d [1; 2]) \/ False). split.
  - apply (dp_call [1; 2] (fun d => d = ONE \/ In d [1; 2]) (fun _ => False) 0 (mkB 3 [] []) unit m 0 (fun _ _ => True) r b).
    + apply (dp_source [] (fun d => d = ONE) 0 b_new _ (b_wires 2) (fun ks => ks) [1; 2]); [apply dp_new|apply src_wires|reflexivity].
    + unfold m. set (K := fun d => d = ONE \/ In d [1; 2]).
      assert (W1 : forall K', sub K K' -> over K' (e_wire 1)) by (intros K' S; apply kn_wire, S; right; cbn; auto).
      assert (W2 : forall K', sub K K' -> over K' (e_wire 2)) by (intros K' S; apply kn_wire, S; right; cbn; auto).
      eapply dl_then; [apply dl_product; [apply W1|apply W2]; apply sub_refl|cbv beta; intros K1 p P1 S1 Hp].
      apply dl_lt; [apply W1; exact S1|exact Hp].
    + exact E.
    + intros K1 _ _ d [].
  - assert (Eb : b = match m (mkB 3 [] []) with Ok (_, x) => x | _ => b_new end) by (rewrite E; reflexivity). rewrite Eb. clear E Eb.
    vm_compute. repeat split. lia.
Qed.
