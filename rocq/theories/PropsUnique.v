(** C86: the witness of a circuit is unique. *)
From Coq Require Import ZArith List Bool Arith Lia Znumtheory.
From Verif Require Import Base FieldM FieldP ExprM BuilderM GadgetsM CryptoM CurveM WaksmanM Spec SpecCrypto SpecCurve SpecUnique ExprP BitsP MonoP LocalP SoundP CmpP
  HonestP ExecP CoreP CompleteP SatP ForgeP CryptoP MatrixP Demo PropLib PropsCore PropsBasic PropsBinary PropsCurve ProgramM ProgramP LibraryM LibraryP ComponentsP PropsLibrary
  UniqueP CmpUniqueP TightP.
Import ListNotations.
Open Scope Z_scope.

Lemma to_free {F : Field} {A} (G : witness -> Prop) (m : B A) xs out : (forall w1 w2, wf_witness w1 -> wf_witness w2 -> G w1 -> G w2 -> sames w1 w2 xs ->
  fixed w1 w2 m (fun a => sames w1 w2 (out a))) -> no_freedom_when G m xs out.
Proof.
  intros H b a b' w1 w2 E W1 W2 S1 S2 G1 G2 Q. apply sames_eq in Q. destruct (fixed_elim w1 w2 m _ b a b' (H w1 w2 W1 W2 G1 G2 Q) E S1 S2) as [R K].
  split; [apply sames_eq, R|exact K].
Qed.
Lemma to_free0 {F : Field} {A} (G : witness -> Prop) (m : B A) xs : (forall w1 w2, wf_witness w1 -> wf_witness w2 -> G w1 -> G w2 -> sames w1 w2 xs ->
  fixed w1 w2 m (fun _ => True)) -> no_freedom_when G m xs no_result.
Proof. intro H. apply to_free. intros w1 w2 W1 W2 G1 G2 Q. eapply fixed_weaken; [apply H; assumption|]. intros. constructor. Qed.
Lemma to_free1 {F : Field} (G : witness -> Prop) (m : B expr) xs : (forall w1 w2, wf_witness w1 -> wf_witness w2 -> G w1 -> G w2 -> sames w1 w2 xs ->
  fixed w1 w2 m (same w1 w2)) -> no_freedom_when G m xs one_result.
Proof. intro H. apply to_free. intros w1 w2 W1 W2 G1 G2 Q. eapply fixed_weaken; [apply H; assumption|]. intros r Hr. constructor; [exact Hr|constructor]. Qed.
Ltac splits := repeat match goal with |- _ /\ _ => split end.
Ltac args := repeat match goal with H : sames _ _ (_ :: _) |- _ => apply Forall_cons_iff in H; destruct H as [? H] | H : Forall (same _ _) (_ :: _) |- _ => apply Forall_cons_iff in H; destruct H as [? H] end.

(** ** Gadgets *)
Theorem C86_arithmetic : forall (F : Field), prime order -> forall x y e,
  no_freedom (product x y) [x; y] one_result /\ no_freedom (inverse x) [x] one_result /\ no_freedom (quotient x y) [x; y] one_result /\
  no_freedom (exponentiation x e) [x] one_result /\
  no_freedom (assert_nonzero x) [x] no_result /\ no_freedom (assert_nonequal x y) [x; y] no_result /\
  no_freedom (assert_lt x y) [x; y] no_result /\ no_freedom (assert_gt x y) [x; y] no_result.
Proof.
  intros F Hp x y e. splits; try (apply to_free1); try (apply to_free0); intros w1 w2 W1 W2 _ _ Q; args.
  - apply (fixed_product Hp); assumption.
  - apply (fixed_inverse Hp); assumption.
  - apply (fixed_quotient Hp); assumption.
  - apply (fixed_exponentiation Hp); assumption.
  - eapply fixed_weaken; [apply (fixed_assert_nonzero Hp); assumption|auto].
  - eapply fixed_weaken; [apply (fixed_assert_nonequal Hp); assumption|auto].
  - apply (fixed_assert_lt Hp); assumption.
  - apply (fixed_assert_gt Hp); assumption.
Qed.
Print Assumptions C86_arithmetic.

Theorem C86_boolean : forall (F : Field), prime order -> forall x y c,
  no_freedom (b_not x) [x] one_result /\ no_freedom (b_and x y) [x; y] one_result /\ no_freedom (b_or x y) [x; y] one_result /\
  no_freedom (b_xor x y) [x; y] one_result /\ no_freedom (selection c x y) [c; x; y] one_result /\ no_freedom (assert_boolean x) [x] one_result.
Proof.
  intros F Hp x y c. splits; try (apply to_free1); intros w1 w2 W1 W2 _ _ Q; args.
  - apply (fixed_not Hp); assumption.
  - apply (fixed_product Hp); assumption.
  - apply (fixed_or Hp); assumption.
  - apply (fixed_xor Hp); assumption.
  - apply (fixed_selection Hp); assumption.
  - apply fixed_assert_boolean; assumption.
Qed.
Print Assumptions C86_boolean.

(** The words given to the gadgets consist of bits in both assignments. *)
Theorem C86_words : forall (F : Field), prime order -> forall x y n ts a,
  no_freedom (split a) [a] all_results /\ no_freedom (split_bounded a n) [a] all_results /\
  no_freedom_when (fun w => Forall (bin_ok w) ts) (binary_summation ts) (concat ts) all_results /\
  no_freedom_when (fun w => Forall (bin_ok w) ts) (binary_summation_ignoring_overflow ts) (concat ts) all_results /\
  no_freedom_when (fun w => Forall (bin_ok w) ts) (binary_summation_asserting_no_overflow ts) (concat ts) all_results /\
  no_freedom (bitwise_not x) x all_results /\ no_freedom (bitwise_and x y) (x ++ y) all_results /\
  no_freedom (bitwise_or x y) (x ++ y) all_results /\ no_freedom (bitwise_xor x y) (x ++ y) all_results /\
  no_freedom_when (fun w => bin_ok w x /\ bin_ok w y) (assert_lt_binary x y) (x ++ y) no_result /\
  no_freedom_when (fun w => bin_ok w x /\ bin_ok w y) (assert_gt_binary x y) (x ++ y) no_result.
Proof.
  intros F Hp x y n ts a.
  assert (Sx : forall w1 w2, sames w1 w2 (x ++ y) -> sames w1 w2 x /\ sames w1 w2 y) by (intros w1 w2 Q; apply Forall_app in Q; exact Q).
  assert (St : forall w1 w2, sames w1 w2 (concat ts) -> Forall (sames w1 w2) ts).
  { intros w1 w2 Q. apply Forall_forall. intros t It. unfold sames in *. rewrite Forall_forall in *. intros e Ie. apply Q, in_concat. eauto. }
  splits; try (apply to_free0); try (apply to_free); unfold all_results; intros w1 w2 W1 W2 G1 G2 Q; args.
  - apply (fixed_split Hp); assumption.
  - apply (fixed_split_bounded Hp); assumption.
  - apply (fixed_binary_summation Hp); auto.
  - apply (fixed_bs_ignoring Hp); auto.
  - apply (fixed_bs_asserting Hp); auto.
  - apply (fixed_bitwise_not Hp); assumption.
  - destruct (Sx _ _ Q). apply fixed_bitwise2; [intros; mono| |assumption|assumption]. intros; apply (fixed_product Hp); assumption.
  - destruct (Sx _ _ Q). apply fixed_bitwise2; [intros; mono| |assumption|assumption]. intros; apply (fixed_or Hp); assumption.
  - destruct (Sx _ _ Q). apply fixed_bitwise2; [intros; mono| |assumption|assumption]. intros; apply (fixed_xor Hp); assumption.
  - destruct (Sx _ _ Q), G1, G2. apply (fixed_assert_lt_binary Hp); assumption.
  - destruct (Sx _ _ Q), G1, G2. apply (fixed_assert_gt_binary Hp); assumption.
Qed.
Print Assumptions C86_words.

Theorem C86_access : forall (F : Field), prime order -> forall items bits i,
  no_freedom (random_access items i) (i :: items) one_result /\
  no_freedom (random_access_binary items bits) (items ++ bits) one_result.
Proof.
  intros F Hp items bits i. split; apply to_free1; intros w1 w2 W1 W2 _ _ Q; args.
  - apply (fixed_random_access Hp); assumption.
  - apply Forall_app in Q. destruct Q. apply (fixed_rab Hp); assumption.
Qed.
Print Assumptions C86_access.

(** Permutations, ciphers, compression functions and hashes; those built on others have no freedom if these have none. *)
Theorem C86_monomial : forall (F : Field), prime order -> forall n, 1 <= n < order -> Z.gcd (order - 1) n = 1 ->
  no_freedom1 (permute (monomial n)) /\ no_freedom1 (p_inverse (monomial n)).
Proof.
  intros F Hp n Hn Hg. split; intro x; apply to_free1; intros w1 w2 W1 W2 _ _ Q; args.
  - apply (fixed_exponentiation Hp); assumption.
  - apply (fixed_monomial_inverse Hp); assumption.
Qed.
Print Assumptions C86_monomial.

Theorem C86_mimc : forall (F : Field), prime order -> forall constants round,
  ((forall x, mono (permute round x)) -> no_freedom1 (permute round) -> no_freedom2 (mimc_encrypt constants round)) /\
  ((forall x, mono (p_inverse round x)) -> no_freedom1 (p_inverse round) -> no_freedom2 (mimc_decrypt constants round)).
Proof.
  intros F Hp cs r. split; intros M N x y; apply to_free1; intros w1 w2 W1 W2 _ _ Q; args.
  - apply (rigid_mimc_encrypt Hp w1 w2 W1 W2 cs r (rigid1_of w1 w2 W1 W2 _ M N)); assumption.
  - apply (rigid_mimc_decrypt Hp w1 w2 W1 W2 cs r (rigid1_of w1 w2 W1 W2 _ M N)); assumption.
Qed.
Print Assumptions C86_mimc.

Theorem C86_compression : forall (F : Field), prime order -> forall c, (forall x y, mono (encrypt c x y)) -> no_freedom2 (encrypt c) ->
  no_freedom2 (davies_meyer c) /\ no_freedom2 (miyaguchi_preneel c).
Proof.
  intros F Hp c M N. split; intros x y; apply to_free1; intros w1 w2 W1 W2 _ _ Q; args.
  - apply (rigid_davies_meyer Hp w1 w2 c (rigid2_of w1 w2 W1 W2 _ M N)); assumption.
  - apply (rigid_miyaguchi_preneel Hp w1 w2 c (rigid2_of w1 w2 W1 W2 _ M N)); assumption.
Qed.
Print Assumptions C86_compression.

Theorem C86_hashes : forall (F : Field), prime order -> forall compress, (forall x y, mono (compress x y)) -> no_freedom2 compress ->
  forall iv blocks leaf root p,
  no_freedom (merkle_damgard iv compress blocks) blocks one_result /\
  no_freedom (merkle_tree_root compress leaf p) (leaf :: prefix p ++ siblings p) one_result /\
  no_freedom (assert_merkle_tree_membership compress leaf root p) (leaf :: prefix p ++ siblings p) no_result.
Proof.
  intros F Hp m M N iv blocks leaf root p. splits; try apply to_free1; try apply to_free0; intros w1 w2 W1 W2 _ _ Q; args;
    try match goal with H : Forall _ (_ ++ _) |- _ => apply Forall_app in H; destruct H end.
  - apply (fixed_merkle_damgard w1 w2 W1 W2); [apply rigid2_of; assumption|exact Q].
  - apply (fixed_merkle_root Hp w1 w2 W1 W2); try assumption. apply rigid2_of; assumption.
  - apply (fixed_merkle_membership Hp w1 w2 W1 W2); try assumption. apply rigid2_of; assumption.
Qed.
Print Assumptions C86_hashes.

Theorem C86_lanes : forall (F : Field), prime order ->
  (forall p, pos_sbox p <> Inverse -> no_freedoml (poseidon_permute p)) /\
  (forall r, 1 <= res_alpha r < order -> no_freedoml (rescue_permute r)) /\
  (forall s xs n, (forall l, mono (mp_permute (sp_perm s) l)) -> no_freedoml (mp_permute (sp_perm s)) -> no_freedom (sponge_evaluate s xs n) xs all_results) /\
  (forall C x y, no_freedom (ed_expr_new C x y) [x; y] no_result).
Proof.
  intros F Hp. split; [|split; [|split]].
  - intros p N xs. apply to_free. intros w1 w2 W1 W2 _ _ Q. apply (rigidl_poseidon Hp w1 w2 W1 W2 p N), Q.
  - intros r N xs. apply to_free. intros w1 w2 W1 W2 _ _ Q. apply (rigidl_rescue Hp w1 w2 W1 W2 r N), Q.
  - intros s xs n M N. apply to_free. intros w1 w2 W1 W2 _ _ Q. apply (fixed_sponge Hp); [apply rigidl_of; assumption|exact Q].
  - intros C x y. apply to_free0. intros w1 w2 W1 W2 _ _ Q. args. unfold ed_expr_new.
    eapply fixed_bind; [apply (fixed_product Hp); assumption|intro; mono|]. intros xx Hxx. eapply fixed_bind; [apply (fixed_product Hp); assumption|intro; mono|]. intros yy Hyy.
    eapply fixed_bind; [apply (fixed_product Hp); assumption|intro; mono|]. intros xxyy Hxy. eapply fixed_bind; [apply fixed_assert_equal|intro; mono|]. intros _ _. apply fixed_ret. exact I.
Qed.
Print Assumptions C86_lanes.

(** ** Circuits *)
(** The components of C85 without the tests for zero and equality and without permutations, which do leave freedom (see below). *)
Inductive rigid_library {F : Field} : component -> Prop :=
| rl_op t o out : forced o -> check1 t o = Some (t ++ out) -> rigid_library (c_op t o out)
| rl_bit : rigid_library c_bit
| rl_truth b : rigid_library (c_truth b)
| rl_split : rigid_library c_split
| rl_split_bounded n : rigid_library (c_split_bounded n)
| rl_join n : rigid_library (c_join n)
| rl_sum ns : rigid_library (c_sum ns)
| rl_sum_wrapping ns : rigid_library (c_sum_wrapping ns)
| rl_sum_checked ns : rigid_library (c_sum_checked ns)
| rl_wnot n : rigid_library (c_wnot n)
| rl_wand n : rigid_library (c_bitwise n bitwise_and Z.land)
| rl_wor n : rigid_library (c_bitwise n bitwise_or Z.lor)
| rl_wxor n : rigid_library (c_bitwise n bitwise_xor Z.lxor)
| rl_wless n : (0 < n)%nat -> (S (cmp_chunk_bits n) < max_bits)%nat -> rigid_library (c_wless n)
| rl_wgreater n : (0 < n)%nat -> (S (cmp_chunk_bits n) < max_bits)%nat -> rigid_library (c_wgreater n)
| rl_access n : (1 <= n)%nat -> (index_bits n < max_bits)%nat -> rigid_library (c_access n)
| rl_compress m H : library (c_compress m H) -> (forall x y, mono (m x y)) -> no_freedom2 m -> rigid_library (c_compress m H)
| rl_hash m H iv n : library (c_hash m H iv n) -> (forall x y, mono (m x y)) -> no_freedom2 m -> rigid_library (c_hash m H iv n)
| rl_root m H n : library (c_root m H n) -> (forall x y, mono (m x y)) -> no_freedom2 m -> rigid_library (c_root m H n)
| rl_member m H n : library (c_member m H n) -> (forall x y, mono (m x y)) -> no_freedom2 m -> rigid_library (c_member m H n)
| rl_lanes m n f : library (c_lanes m n f) -> (forall xs, mono (m xs)) -> no_freedoml m -> rigid_library (c_lanes m n f)
| rl_sponge s p n outputs : library (c_sponge s p n outputs) -> (forall xs, mono (mp_permute (sp_perm s) xs)) -> no_freedoml (mp_permute (sp_perm s)) ->
    rigid_library (c_sponge s p n outputs)
| rl_point C : rigid_library (c_point C)
| rl_circuit p t t' outs to : (forall c is, In (c, is) p -> rigid_library c) -> typing p t = Some t' -> pick t' outs = Some to ->
    rigid_library (c_circuit p t outs to).
Definition from_rigid {F : Field} (p : circuit) : Prop := forall c is, In (c, is) p -> rigid_library c.

Lemma rigid_in_library {F : Field} c : rigid_library c -> library c.
Proof.
  induction 1; [apply lib_op; assumption|apply lib_bit|apply lib_truth|apply lib_split|apply lib_split_bounded|apply lib_join|apply lib_sum|apply lib_sum_wrapping
    |apply lib_sum_checked|apply lib_wnot|apply lib_wand|apply lib_wor|apply lib_wxor|apply lib_wless; assumption|apply lib_wgreater; assumption|apply lib_access; assumption
    |assumption|assumption|assumption|assumption|assumption|assumption|apply lib_point|eapply lib_circuit; eassumption].
Qed.
Lemma rigid_tight {F : Field} : prime order -> 2 < order -> (4 <= max_bits)%nat -> forall c, rigid_library c -> tight c.
Proof.
  intros Hp H2 H4. induction 1.
  - apply (tight_op Hp); assumption.
  - apply (tight_bit Hp).
  - apply (tight_truth Hp).
  - apply (tight_split Hp).
  - apply (tight_split_bounded Hp).
  - apply (tight_join Hp).
  - apply (tight_sum Hp).
  - apply (tight_sum_wrapping Hp).
  - apply (tight_sum_checked Hp).
  - apply (tight_wnot Hp).
  - apply (tight_wand Hp).
  - apply (tight_wor Hp).
  - apply (tight_wxor Hp).
  - apply (tight_wless Hp).
  - apply (tight_wgreater Hp).
  - apply (tight_access Hp).
  - apply tight_compress; assumption.
  - apply tight_hash; assumption.
  - apply (tight_root Hp); assumption.
  - apply (tight_member Hp); assumption.
  - apply tight_lanes; assumption.
  - apply (tight_sponge Hp); assumption.
  - apply (tight_point Hp).
  - eapply (tight_circuit Hp); [|exact H0|eassumption]. intros c is I. apply (library_correct Hp H2 H4), rigid_in_library, (H c is I).
Qed.

(** Anywhere in a larger circuit: the values of the arguments determine all new wires, not only the results. *)
Theorem C86_circuits : forall (F : Field), prime order -> 2 < order -> (4 <= max_bits)%nat -> forall p xs,
  from_rigid p -> well_typed p (length xs) -> no_freedom (construct p xs) xs all_results.
Proof.
  intros F Hp H2 H4 p xs R [t T]. apply to_free. intros w1 w2 W1 W2 _ _ Q. unfold all_results. eapply fixed_construct; eauto.
  - intros c is I. apply (library_correct Hp H2 H4), rigid_in_library, (R c is I).
  - intros c is I. apply (rigid_tight Hp H2 H4), (R c is I).
  - apply fields_fit.
Qed.
Print Assumptions C86_circuits.

(** A circuit on its own: for given inputs there is at most one witness. *)
Theorem C86_unique : forall (F : Field), prime order -> 2 < order -> (4 <= max_bits)%nat -> forall p n ws b0 out b' w1 w2,
  from_rigid p -> well_typed p n -> b_wires n b_new = Ok (ws, b0) -> construct p (map e_wire ws) b0 = Ok (out, b') ->
  wf_witness w1 -> wf_witness w2 -> sat w1 b' -> sat w2 b' -> (forall k, In k ws -> w1 k = w2 k) ->
  forall k, (k < next b')%nat -> w1 k = w2 k.
Proof.
  intros F Hp H2 H4 p n ws b0 out b' w1 w2 R T E0 E W1 W2 S1 S2 Hi k Hk. rewrite wires_spec in E0. injection E0 as <- <-.
  destruct (Nat.lt_ge_cases k (1 + n)) as [L|L].
  - destruct k as [|k]; [destruct W1 as [A _], W2 as [A' _]; unfold ONE in *; congruence|]. apply Hi, in_seq. cbn. lia.
  - assert (T' : well_typed p (length (map e_wire (seq (next b_new) n)))) by (rewrite map_length, seq_length; exact T).
    destruct (C86_circuits F Hp H2 H4 p _ R T' _ _ _ w1 w2 E W1 W2 S1 S2 I I) as [_ K]; [|apply K; cbn [next]; cbn; lia].
    rewrite !map_map. apply map_ext_in. intros j Hj. rewrite (ev_wire_ Hp w1 W1), (ev_wire_ Hp w2 W2). apply Hi, Hj.
Qed.
Print Assumptions C86_unique.

(** The witness found by executing the circuit is the only one there is. *)
Theorem C86_executed : forall (F : Field), prime order -> 2 < order -> (4 <= max_bits)%nat -> forall p vals ws b0 out b' v0 v,
  from_rigid p -> well_typed p (length vals) -> good_inputs vals -> b_wires (length vals) b_new = Ok (ws, b0) ->
  construct p (map e_wire ws) b0 = Ok (out, b') -> input_values vals v0 -> execute (build b') v0 = Ok (true, v) ->
  forall w, wf_witness w -> sat w b' -> (forall i, (i < length vals)%nat -> w (S i) = nth i vals 0) ->
  forall k x, (k < next b')%nat -> m_get k v = Some x -> w k = x mod order.
Proof.
  intros F Hp H2 H4 p vals ws b0 out b' v0 v R T Hv E0 E I0 X w W S Hi k x Hk G.
  assert (CR : all_correct p) by (intros c is Ic; apply (library_correct Hp H2 H4), rigid_in_library, (R c is Ic)).
  assert (HA : Forall (fun x => adds (g_run x)) (generators b')).
  { destruct (mono_construct p CR _ _ _ _ E) as (_ & _ & gs & Eg & Ag). rewrite Eg. rewrite wires_spec in E0. injection E0 as <- <-. exact Ag. }
  destruct (C11_execute F (prime_ge2 Hp) (build b') v0 true v HA X) as (_ & Keep & T1). destruct I0 as (I1 & I2 & _).
  assert (W' : wf_witness (witness_of v)) by (apply (witness_of_wf (prime_ge2 Hp)), Keep, I1).
  assert (S' : sat (witness_of v) b') by (apply T1; reflexivity).
  rewrite (C86_unique F Hp H2 H4 p (length vals) ws b0 out b' w (witness_of v) R T E0 E W W' S S'); [unfold witness_of; rewrite G; reflexivity| |exact Hk].
  rewrite wires_spec in E0. injection E0 as <- <-. intros j Hj. apply in_seq in Hj. cbn in Hj. destruct j as [|i]; [lia|].
  unfold witness_of. rewrite (Keep _ _ (I2 i ltac:(lia))), Hi by lia. symmetry. apply Z.mod_small. unfold good_inputs in Hv. rewrite Forall_forall in Hv. apply Hv, nth_In. lia.
Qed.
Print Assumptions C86_executed.

(** ** Where freedom remains *)
(** The test for zero: at 0 the auxiliary wire may have any value. *)
Theorem C86_nonzero_leaves_freedom : ~ (forall (F : Field) x, prime order -> no_freedom (nonzero x) [x] one_result).
Proof.
  intro N. specialize (N F11 (e_wire 1) prime_F11). set (F := F11 : Field) in *.
  destruct (@forge_check_ok F11 _ (mkB 2 [] []) [1; 0; 0; 4] (nonzero (e_wire 1)) (fun _ _ => true)) as (r & b' & E & W & S & _); [vm_compute; reflexivity|].
  destruct (@forge_check_ok F11 _ (mkB 2 [] []) [1; 0; 0; 7] (nonzero (e_wire 1)) (fun _ _ => true)) as (r2 & b2 & E2 & W2 & S2 & _); [vm_compute; reflexivity|].
  rewrite E in E2. injection E2 as <- <-. match type of E with ?t = _ => assert (L : (match t with Ok (_, b) => Nat.eqb (next b) 4 | _ => false end) = true) by (vm_compute; reflexivity) end.
  rewrite E in L. apply Nat.eqb_eq in L.
  destruct (N (mkB 2 [] []) r b' _ _ E W W2 S S2 I I eq_refl) as [_ K]. specialize (K 3%nat). rewrite L in K. cbn in K. specialize (K ltac:(lia)). discriminate.
Qed.
Print Assumptions C86_nonzero_leaves_freedom.

(** Asserting a permutation: equal items can be routed either way. *)
Theorem C86_permutation_leaves_freedom : ~ (forall (F : Field) xs ys, prime order -> no_freedom (assert_permutation xs ys) (xs ++ ys) no_result).
Proof.
  intro N. specialize (N F11 [e_wire 1; e_wire 2] [e_wire 3; e_wire 4] prime_F11). set (F := F11 : Field) in *.
  destruct (@forge_check_ok F11 _ (mkB 5 [] []) [1; 6; 6; 6; 6; 0; 0] (assert_permutation [e_wire 1; e_wire 2] [e_wire 3; e_wire 4]) (fun _ _ => true)) as (r & b' & E & W & S & _); [vm_compute; reflexivity|].
  destruct (@forge_check_ok F11 _ (mkB 5 [] []) [1; 6; 6; 6; 6; 1; 0] (assert_permutation [e_wire 1; e_wire 2] [e_wire 3; e_wire 4]) (fun _ _ => true)) as (r2 & b2 & E2 & W2 & S2 & _); [vm_compute; reflexivity|].
  rewrite E in E2. injection E2 as <- <-. match type of E with ?t = _ => assert (L : (match t with Ok (_, b) => Nat.eqb (next b) 7 | _ => false end) = true) by (vm_compute; reflexivity) end.
  rewrite E in L. apply Nat.eqb_eq in L.
  destruct (N (mkB 5 [] []) r b' _ _ E W W2 S S2 I I eq_refl) as [_ K]. specialize (K 5%nat). rewrite L in K. cbn in K. specialize (K ltac:(lia)). discriminate.
Qed.
Print Assumptions C86_permutation_leaves_freedom.

(** Comparisons whose result is not asserted: in every large enough field, 0 < 1 may come out either way. *)
Theorem C86_compare_leaves_freedom : forall (F : Field), prime order -> (4 <= max_bits)%nat -> ~ no_freedom (lt e_zero e_one) [e_zero; e_one] one_result.
Proof.
  intros F Hp H4 N. pose proof (max_bits_odd H4) as H2. pose proof (prime_ge2 Hp) as Ho.
  assert (Q : forall r, r = 0 \/ r = 1 -> sat_call (lt e_zero e_one) (below2 e_zero e_one) (fun w e => ev w e = r)).
  { intros r Hr. apply to_sat_call. intros s G [Bx By].
    eapply csat_weaken; [eapply (fs_cmp_less Hp H2) with (r := r) (strict := true) (A := 0); [exact H4|apply (has_below (nx s) (wt s) s); auto|apply (has_below (nx s) (wt s) s); auto| |]|].
    - left. rewrite (ev_zero Ho). reflexivity.
    - destruct Hr as [-> | ->]; [left; reflexivity|right; split; [reflexivity|]]. cbn [Bool.eqb]. rewrite (ev_one Ho); [lia|apply G].
    - cbv beta. intros e s1 _ _ [_ He]. exact He. }
  assert (W0 : wf_witness (fun k => match k with O => 1 | S _ => 0 end)) by (split; [reflexivity|intros [|k]; lia]).
  assert (Wb : wf_builder b_new) by (split; [cbn; lia|constructor]).
  assert (B0 : below2 e_zero e_one (next b_new) (fun k => match k with O => 1 | S _ => 0 end)) by (split; [apply over_zero|apply over_one; unfold ONE; cbn; lia]).
  destruct (Q 0 (or_introl eq_refl) b_new _ Wb W0 (Forall_nil _) B0) as (r & b' & w1 & E1 & _ & W1 & A1 & S1 & R1).
  destruct (Q 1 (or_intror eq_refl) b_new _ Wb W0 (Forall_nil _) B0) as (r2 & b2 & w2 & E2 & _ & W2 & A2 & S2 & R2).
  rewrite E1 in E2. injection E2 as <- <-. destruct (N b_new r b' w1 w2 E1 W1 W2 S1 S2 I I) as [K _].
  - cbn [map]. rewrite !(ev_zero Ho), (ev_one Ho w1), (ev_one Ho w2) by (apply W1 || apply W2). reflexivity.
  - unfold one_result in K. cbn [map] in K. injection K as K. congruence.
Qed.
Print Assumptions C86_compare_leaves_freedom.

(** Example: the circuit of C85 over F_11 (a Merkle proof inside a circuit that splits, adds and joins). *)
Lemma demo_hash_rigid : let F : Field := F11 in (forall x y, mono (demo_hash x y)) /\ no_freedom2 demo_hash.
Proof.
  intro F. destruct demo_hash_facts as (A1 & _). split; [apply A1|]. unfold demo_hash.
  destruct (C86_monomial F11 prime_F11 3) as [N _]; [cbn; lia|vm_compute; reflexivity|].
  assert (M : forall x, mono (permute (monomial 3) x)) by (intro; mono). apply (C86_compression F11 prime_F11); cbn [encrypt].
  - intros x y. unfold mimc_encrypt. mono.
  - apply (C86_mimc F11 prime_F11); assumption.
Qed.
Example C86_example : let F : Field := F11 in
  from_rigid demo_circuit /\ well_typed demo_circuit 4 /\
  demo [3; 2; 7; 1] (construct demo_circuit [e_wire 1; e_wire 2; e_wire 3; e_wire 4]) (fun r => r) = Ok (true, [3; 2; 7; 1; 1; 0; 1; 1; 1; 3]) /\
  match construct demo_circuit [e_wire 1; e_wire 2; e_wire 3; e_wire 4] (mkB 5 [] []) with Ok (_, b) => next b = 18%nat | _ => False end.
Proof.
  destruct demo_hash_facts as (A1 & A2 & A3). destruct demo_hash_rigid as [M N]. intro F. split; [|split; [eexists; vm_compute; reflexivity|split; vm_compute; reflexivity]].
  intros c is [E|[E|[E|[E|[]]]]]; injection E as <- <-.
  - eapply rl_circuit; [|vm_compute; reflexivity|vm_compute; reflexivity]. intros c is [E|[E|[]]]; injection E as <- <-; [apply rl_split_bounded|].
    apply rl_member; [apply lib_member; assumption|exact M|exact N].
  - apply rl_split_bounded.
  - apply rl_sum_checked.
  - apply rl_join.
Qed.
