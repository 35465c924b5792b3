(** C10: the builder hands out fresh wires and never forgets a constraint. *)
From Coq Require Import ZArith List Bool Arith Lia.
From Verif Require Import Base FieldM FieldP ExprM BuilderM GadgetsM CryptoM CurveM WaksmanM Spec MonoP LocalP CryptoP SpongeP
  MatrixP EdwardsP CurveP WaksmanP SortP Demo.
Import ListNotations.
Open Scope nat_scope.

(** The calls a user can make on a GadgetBuilder: one constructor per public method (and per implementation of the
    trait methods that take a builder), closed under composition; [c_pure] is any computation that does not touch
    the builder, including one that panics.  [adds] in [c_generator] says that the closure does not overwrite values,
    which WireValues::set refuses. *)
Inductive call {F : Field} : forall {A : Type}, B A -> Prop :=
| c_pure A (o : outcome A) : call (blift o)
| c_then A C (m : B A) (k : A -> B C) : call m -> (forall a, call (k a)) -> call (bbind m k)
| c_wire : call b_wire
| c_wires n : call (b_wires n)
| c_boolean_wire : call boolean_wire
| c_binary_wire n : call (binary_wire n)
| c_generator deps run : adds run -> call (b_generator deps run)
| c_assert_product x y z : call (assert_product x y z)
| c_assert_boolean x : call (assert_boolean x)
| c_assert_equal x y : call (assert_equal x y)
| c_assert_zero x : call (assert_zero x)
| c_assert_true x : call (assert_true x)
| c_assert_false x : call (assert_false x)
| c_product x y : call (product x y)
| c_exponentiation x p : call (exponentiation x p)
| c_inverse x : call (inverse x)
| c_assert_nonzero x : call (assert_nonzero x)
| c_assert_nonequal x y : call (assert_nonequal x y)
| c_nonzero x : call (nonzero x)
| c_not x : call (b_not x)
| c_and x y : call (b_and x y)
| c_or x y : call (b_or x y)
| c_xor x y : call (b_xor x y)
| c_zero x : call (g_zero x)
| c_equal x y : call (g_equal x y)
| c_selection c x y : call (selection c x y)
| c_inverse_or_zero x : call (inverse_or_zero x)
| c_quotient x y : call (quotient x y)
| c_quotient_unsafe x y : call (quotient_unsafe x y)
| c_split x : call (split x)
| c_split_allowing_ambiguity x : call (split_allowing_ambiguity x)
| c_split_bounded x n : call (split_bounded x n)
| c_cmp_binary x y less strict : call (cmp_binary x y less strict)
| c_assert_lt_binary x y : call (assert_lt_binary x y)
| c_assert_le_binary x y : call (assert_le_binary x y)
| c_assert_gt_binary x y : call (assert_gt_binary x y)
| c_assert_ge_binary x y : call (assert_ge_binary x y)
| c_cmp x y less strict : call (cmp x y less strict)
| c_assert_lt x y : call (assert_lt x y)
| c_assert_le x y : call (assert_le x y)
| c_assert_gt x y : call (assert_gt x y)
| c_assert_ge x y : call (assert_ge x y)
| c_modulus x y : call (modulus x y)
| c_divides x y : call (divides x y)
| c_binary_summation ts : call (binary_summation ts)
| c_binary_summation_ignoring_overflow ts : call (binary_summation_ignoring_overflow ts)
| c_binary_summation_asserting_no_overflow ts : call (binary_summation_asserting_no_overflow ts)
| c_binary_assert_zero x : call (binary_assert_zero x)
| c_bitwise_not x : call (bitwise_not x)
| c_bitwise_and x y : call (bitwise_and x y)
| c_bitwise_or x y : call (bitwise_or x y)
| c_bitwise_xor x y : call (bitwise_xor x y)
| c_rotate_inc x n : call (rotate_inc x n)
| c_rotate_dec x n : call (rotate_dec x n)
| c_shift_inc x n : call (shift_inc x n)
| c_shift_dec x n : call (shift_dec x n)
| c_random_access items i : call (random_access items i)
| c_random_access_binary items bits : call (random_access_binary items bits)
| c_assert_permutation a b : call (assert_permutation a b)
| c_sort_ascending l : call (sort_ascending l)
| c_sort_descending l : call (sort_descending l)
| c_monomial n x : call (permute (monomial n) x)
| c_monomial_inverse n x : call (p_inverse (monomial n) x)
| c_mimc_encrypt cs n key input : call (mimc_encrypt cs (monomial n) key input)
| c_mimc_decrypt cs n key output : call (mimc_decrypt cs (monomial n) key output)
| c_davies_meyer c x y : (forall k i, call (encrypt c k i)) -> call (davies_meyer c x y)
| c_miyaguchi_preneel c x y : (forall k i, call (encrypt c k i)) -> call (miyaguchi_preneel c x y)
| c_merkle_damgard iv m blocks : (forall x y, call (m x y)) -> call (merkle_damgard iv m blocks)
| c_merkle_tree_root m leaf path : (forall x y, call (m x y)) -> call (merkle_tree_root m leaf path)
| c_assert_merkle_tree_membership m leaf root path : (forall x y, call (m x y)) ->
    call (assert_merkle_tree_membership m leaf root path)
| c_sponge s inputs n : (forall xs, call (mp_permute (sp_perm s) xs)) -> call (sponge_evaluate s inputs n)
| c_poseidon p xs : call (poseidon_permute p xs)
| c_rescue r xs : call (rescue_permute r xs)
| c_ed_expr_new C x y : call (ed_expr_new C x y)
| c_ed_add C l r : call (ed_add_expressions C l r)
| c_ed_double C p : call (ed_double_expression C p)
| c_mul_boolean C p b : call (mul_boolean_expression (edwards_group C) p b)
| c_mul_scalar C p e : call (mul_scalar_expression (edwards_group C) p e)
| c_schnorr C gen sg msg pk (m : compression) : (forall x y, call (m x y)) ->
    call (schnorr_verify (mkCyclic (edwards_group C) gen) sg msg pk m).

Section Calls.
Context {F : Field}.

Lemma local_sponge_step sp input cap : (forall xs, local (mp_permute (sp_perm sp) xs)) -> local (sponge_step sp input cap).
Proof.
  intro M. unfold sponge_step. apply local_bind; [apply M|intro]. repeat (apply local_bind; [apply local_lift|intro]). apply local_ret.
Qed.
Lemma local_sponge_squeeze sp n : (forall xs, local (mp_permute (sp_perm sp) xs)) ->
  forall fuel input cap outputs, local (sponge_squeeze fuel sp input cap outputs n).
Proof.
  intros M fuel. induction fuel as [|f IH]; intros input cap outputs; cbn [sponge_squeeze]; destruct (length outputs <? n)%nat;
    try apply local_ret; [apply local_lift|]. apply local_bind; [apply local_sponge_step, M|]. intros [i' c']. apply IH.
Qed.
Lemma sbox_forms sb p : sbox_to_permutation sb = Ok p -> p = inverse_permutation \/ exists n, p = monomial n.
Proof.
  destruct sb; cbn [sbox_to_permutation].
  - destruct (el_from 3) as [e| |]; cbn [obind]; try discriminate. destruct (monomial_new e) as [n| |]; cbn [obind]; try discriminate.
    intro E. inversion E. eauto.
  - destruct (el_from 5) as [e| |]; cbn [obind]; try discriminate. destruct (monomial_new e) as [n| |]; cbn [obind]; try discriminate.
    intro E. inversion E. eauto.
  - intro E. inversion E. auto.
Qed.
Lemma sbox_ok sb x : mono (sbox_permute sb x) /\ local (sbox_permute sb x).
Proof.
  unfold sbox_permute. destruct (sbox_to_permutation sb) as [p| |] eqn:E.
  - change (mono (permute p x) /\ local (permute p x)). apply sbox_forms in E. destruct E as [->|[n ->]]; cbn [permute inverse_permutation monomial]; split; [mono|local|mono|local].
  - split; intros b; [discriminate|reflexivity].
  - split; intros b; [discriminate|reflexivity].
Qed.
Lemma poseidon_ok p xs : mono (poseidon_permute p xs) /\ local (poseidon_permute p xs).
Proof.
  unfold poseidon_permute. split.
  - do 2 (apply mono_bind; [apply mono_lift|intro]). apply mono_bfold. intros st r.
    apply mono_bind; [|intro; apply mono_ret].
    destruct (poseidon_full_round p r); [apply mono_bmap; intro; apply sbox_ok|].
    destruct st; cbn [update_first]; [apply mono_lift|]. apply mono_bind; [apply sbox_ok|intro; apply mono_ret].
  - do 2 (apply local_bind; [apply local_lift|intro]). apply local_bfold. intros st r.
    apply local_bind; [|intro; apply local_ret].
    destruct (poseidon_full_round p r); [apply local_bmap; intro; apply sbox_ok|].
    destruct st; cbn [update_first]; [apply local_lift|]. apply local_bind; [apply sbox_ok|intro; apply local_ret].
Qed.

Lemma call_ok : forall A (m : B A), call m -> mono m /\ local m.
Proof.
  induction 1; try (split; [solve [mono]|solve [local]]).
  - split; [apply mono_bind|apply local_bind]; try apply IHcall; intro; apply H1.
  - split; [apply mono_generator, H|local].
  - split; unfold davies_meyer; [apply mono_bind|apply local_bind]; try apply H0; intro; [apply mono_ret|apply local_ret].
  - split; unfold miyaguchi_preneel; [apply mono_bind|apply local_bind]; try apply H0; intro; [apply mono_ret|apply local_ret].
  - split; unfold merkle_damgard; repeat first [apply H0|mono_step|local_step].
  - split; unfold merkle_tree_root, merkle_tree_step; repeat first [apply H0|mono_step|local_step].
  - split; unfold assert_merkle_tree_membership, merkle_tree_root, merkle_tree_step; repeat first [apply H0|mono_step|local_step].
  - assert (M1 : forall xs, mono (mp_permute (sp_perm s) xs)) by (intro; apply H0).
    assert (M2 : forall xs, local (mp_permute (sp_perm s) xs)) by (intro; apply H0).
    split; unfold sponge_evaluate; repeat first [apply mono_sponge_step; exact M1|apply mono_sponge_squeeze; exact M1|
      apply local_sponge_step; exact M2|apply local_sponge_squeeze; exact M2|mono_step|local_step].
  - apply poseidon_ok.
  - split; unfold schnorr_verify; repeat first [apply H0|apply mono_mul_scalar|apply mono_ed_add|apply local_mul_scalar|apply local_ed_add|mono_step|local_step].
Qed.

(** The methods that return wires, with the wires they return. *)
Inductive source : forall {A : Type}, B A -> (A -> list wire) -> Prop :=
| src_wire : source b_wire (fun k => [k])
| src_wires n : source (b_wires n) (fun ks => ks)
| src_boolean_wire : source boolean_wire (fun k => [k])
| src_binary_wire n : source (binary_wire n) (fun ks => ks).

Definition fresh_between (lo hi : nat) (ks : list wire) : Prop := NoDup ks /\ Forall (fun k => lo <= k < hi) ks.

Lemma fresh_bmap (m : B wire) : (forall b k b', m b = Ok (k, b') -> next b <= k < next b') ->
  forall l b ks b', bmap (fun _ : nat => m) l b = Ok (ks, b') -> next b <= next b' /\ fresh_between (next b) (next b') ks.
Proof.
  intros H l. induction l as [|i l IH]; intros b ks b' E; cbn [bmap] in E.
  - inversion E; subst. repeat split; constructor.
  - unfold bbind at 1 in E. destruct (m b) as [[k b1]| |] eqn:E1; try discriminate.
    unfold bbind in E. destruct (bmap (fun _ => m) l b1) as [[ks1 b2]| |] eqn:E2; try discriminate. inversion E; subst.
    specialize (H _ _ _ E1). destruct (IH _ _ _ E2) as (L & N & R). split; [lia|]. split; constructor; auto.
    + intro I. rewrite Forall_forall in R. specialize (R _ I). lia.
    + lia.
    + eapply Forall_impl; [|exact R]. cbv beta. intros. lia.
Qed.
Lemma boolean_wire_fresh b k b' : boolean_wire b = Ok (k, b') -> next b <= k < next b'.
Proof. intro E. inversion E; subst. cbn. lia. Qed.
Lemma source_fresh A (m : B A) f : source m f -> forall b r b', m b = Ok (r, b') -> fresh_between (next b) (next b') (f r).
Proof.
  assert (W : forall b k b', b_wire b = Ok (k, b') -> next b <= k < next b').
  { intros b k b' E. inversion E; subst. cbn. lia. }
  destruct 1; intros b r b' E.
  - specialize (W _ _ _ E). split; repeat constructor; auto; lia.
  - exact (proj2 (fresh_bmap b_wire W _ _ _ _ E)).
  - pose proof (boolean_wire_fresh _ _ _ E). split; repeat constructor; auto; lia.
  - exact (proj2 (fresh_bmap boolean_wire boolean_wire_fresh _ _ _ _ E)).
Qed.
Lemma source_call A (m : B A) f : source m f -> call m.
Proof. destruct 1; [apply c_wire|apply c_wires|apply c_boolean_wire|apply c_binary_wire]. Qed.

(** A session: calls made one after the other on a new builder.  [ws] are the wires handed out by the wire methods,
    [cs] and [gs] list, call by call, what each call puts on a builder that holds nothing but has as many wires. *)
Inductive session : list wire -> list (list constraint) -> list (list wgen) -> builder -> Prop :=
| s_new : session [] [] [] b_new
| s_source ws cs gs b A (m : B A) f r b' d : session ws cs gs b -> source m f -> m b = Ok (r, b') ->
    m (mkB (next b) [] []) = Ok (r, d) -> session (ws ++ f r) (cs ++ [constraints d]) (gs ++ [generators d]) b'
| s_call ws cs gs b A (m : B A) r b' d : session ws cs gs b -> call m -> m b = Ok (r, b') ->
    m (mkB (next b) [] []) = Ok (r, d) -> session ws (cs ++ [constraints d]) (gs ++ [generators d]) b'.
End Calls.

(** Every call appends: on any builder it does exactly what it does on a builder holding nothing, after what is there. *)
Theorem C10_calls_append : forall (F : Field) A (m : B A), call m -> forall b,
  match m b, m (mkB (next b) [] []) with
  | Ok (r, b'), Ok (r', d) => r = r' /\ next b <= next b' /\ next b' = next d /\
      constraints b' = constraints b ++ constraints d /\ generators b' = generators b ++ generators d /\
      Forall (fun g => forall v v', g_run g v = Ok v' -> forall k x, m_get k v = Some x -> m_get k v' = Some x) (generators d)
  | Panic, Panic => True
  | NoFuel, NoFuel => True
  | _, _ => False
  end.
Proof.
  intros F A m Hm b. destruct (call_ok _ _ Hm) as [M L]. rewrite (L b).
  destruct (m (mkB (next b) [] [])) as [[r d]| |] eqn:E; auto.
  destruct (M _ _ _ E) as (N & _ & (gs & Eg & Ag)). cbn in N, Eg. subst gs. unfold grow. cbn. repeat split; auto.
Qed.
Print Assumptions C10_calls_append.

(** Wires handed out are distinct from each other and from every earlier wire, the constant wire included. *)
Theorem C10_fresh_wires : forall (F : Field) A (m : B A) f, source m f -> forall b r b', m b = Ok (r, b') ->
  NoDup (f r) /\ Forall (fun k => next b <= k < next b') (f r).
Proof. intros F A m f Hs b r b' E. exact (source_fresh _ _ _ Hs b r b' E). Qed.
Print Assumptions C10_fresh_wires.

Theorem C10_sessions : forall (F : Field) ws cs gs b, session ws cs gs b ->
  NoDup ws /\ ~ In ONE ws /\ Forall (fun k => k < next b) ws /\ 0 < next b /\
  gd_constraints (build b) = concat cs /\ gd_generators (build b) = concat gs.
Proof.
  intros F ws cs gs b H.
  assert (I : NoDup ws /\ Forall (fun k => 0 < k < next b) ws /\ 0 < next b /\ constraints b = concat cs /\ generators b = concat gs).
  { induction H as [|ws cs gs b A m f r b' d _ IH Hs E Ed|ws cs gs b A m r b' d _ IH Hc E Ed].
    - cbn. repeat split; auto; constructor.
    - destruct IH as (I1 & I2 & I3 & I4 & I5). pose proof (C10_calls_append F A m (source_call _ _ _ Hs) b) as C. rewrite E, Ed in C.
      destruct C as (_ & N & _ & C1 & C2 & _). destruct (source_fresh _ _ _ Hs _ _ _ E) as [F1 F2].
      rewrite !concat_app, C1, C2, I4, I5. cbn [concat]. rewrite !app_nil_r. rewrite Forall_forall in I2, F2. repeat split; auto; try lia.
      + clear - I1 I2 F1 F2. induction ws as [|x ws IH]; [exact F1|]. inversion I1; subst. cbn. constructor.
        * intro I. apply in_app_or in I. destruct I as [I|I]; [contradiction|]. specialize (I2 x (or_introl eq_refl)). specialize (F2 x I). lia.
        * apply IH; auto. intros y Hy. apply I2. right. exact Hy.
      + apply Forall_app. split; apply Forall_forall; intros k Hk; [specialize (I2 k Hk)|specialize (F2 k Hk)]; lia.
    - destruct IH as (I1 & I2 & I3 & I4 & I5). pose proof (C10_calls_append F A m Hc b) as C. rewrite E, Ed in C.
      destruct C as (_ & N & _ & C1 & C2 & _). rewrite !concat_app, C1, C2, I4, I5. cbn [concat]. rewrite !app_nil_r.
      repeat split; auto; try lia. eapply Forall_impl; [|exact I2]. cbv beta. intros. lia. }
  destruct I as (I1 & I2 & I3 & I4 & I5). cbn. repeat split; auto.
  - intro I. rewrite Forall_forall in I2. specialize (I2 _ I). unfold ONE in I2. lia.
  - eapply Forall_impl; [|exact I2]. cbv beta. intros. lia.
Qed.
Print Assumptions C10_sessions.

(** Two wires, a boolean wire, their comparison and a product. *)
Example C10_example : let F : Field := F97 in exists cs gs b,
  session [1; 2; 3]%nat cs gs b /\ map (@length constraint) cs = [0; 1; 1; 2]%nat /\ gd_constraints (build b) <> [].
Proof.
  intro F. eexists _, _, _. split.
  - eapply (s_call [1; 2; 3]%nat) with (m := g_equal (e_wire 1) (e_wire 2)).
    + eapply (s_call [1; 2; 3]%nat) with (m := product (e_wire 1) (e_wire 2)).
      * eapply (s_source [1; 2]%nat) with (f := fun k => [k]) (r := 3%nat) (m := boolean_wire).
        -- eapply (s_source []%nat) with (f := fun ks => ks) (r := [1; 2]%nat) (m := b_wires 2);
             [apply s_new|apply src_wires|reflexivity|reflexivity].
        -- apply src_boolean_wire.
        -- reflexivity.
        -- reflexivity.
      * apply c_product.
      * reflexivity.
      * reflexivity.
    + apply c_equal.
    + reflexivity.
    + reflexivity.
  - split; [reflexivity|discriminate].
Qed.
