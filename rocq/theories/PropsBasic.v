(** Properties C13-C19, C21, C22: basic gadgets.  [sound_call] and [runs] are defined in Spec.v. *)
From Coq Require Import ZArith List Bool Arith Lia Znumtheory.
From Verif Require Import Base FieldM FieldP ExprM BuilderM Spec ExprP SoundP HonestP CompleteP GadgetCompleteP Demo PropLib.
Import ListNotations.
Open Scope Z_scope.

Notation wv vals := (ev (input_witness vals)).

(** * C13 product *)
Theorem C13_product_sound : forall (F : Field), prime order -> forall x y,
  sound_call (product x y) (fun w r => ev w r = (ev w x * ev w y) mod order).
Proof. intros F Hp x y. apply to_call. intros w Hw. exact (snd_product Hp w Hw x y). Qed.
Print Assumptions C13_product_sound.

Theorem C13_product_complete : forall (F : Field), prime order -> forall vals x y,
  good_inputs vals -> on_inputs vals x -> on_inputs vals y ->
  runs vals (product x y) (fun r v => e_evaluate v r = Ok ((wv vals x * wv vals y) mod order)).
Proof.
  intros F Hp vals x y Hv Hx Hy. apply (to_runs1 Hp); [exact Hv|].
  apply (cmpl_product Hp); apply has_input; assumption.
Qed.
Print Assumptions C13_product_complete.

(** A non-zero constant factor, on either side, adds no wire, constraint or generator. *)
Theorem C13_product_constant_free : forall (F : Field) c y b, c <> 0 ->
  (exists r, product (e_const c) y b = Ok (r, b)) /\
  (e_as_constant y = None -> exists r, product y (e_const c) b = Ok (r, b)).
Proof.
  intros F c y b Hc.
  assert (E : e_const c = [(ONE, c)]).
  { unfold e_const, e_new, m_collect. simpl. destruct (Z.eqb_spec c 0); [contradiction|reflexivity]. }
  split.
  - exists (e_scale y c). rewrite E. reflexivity.
  - intro Hy. exists (e_scale y c). unfold product. rewrite Hy, E. reflexivity.
Qed.
Print Assumptions C13_product_constant_free.

(** The constant zero is not recognised as a constant: it costs a wire, a constraint and a generator. *)
Theorem C13_product_zero_constant_refuted : exists (F : Field) (y : list (nat * Z)) (b : builder), prime order /\
  exists r b', product (e_const 0) y b = Ok (r, b') /\ length (constraints b') = S (length (constraints b)).
Proof.
  exists F7, (e_wire 1), (mkB 2 [] []). split; [exact prime_F7|].
  eexists _, _. split; vm_compute; reflexivity.
Qed.

Example C13_example : let F : Field := F97 in demo [20; 30] (product (e_add (e_wire 1) e_one) (e_wire 2)) (fun r => [r])
  = Ok (true, [48]).
Proof. vm_compute. reflexivity. Qed.
Example C13_example_sat : let F : Field := F97 in sat_case (product (e_wire 1) (e_wire 2)) (fun w r => (ev w r =? 18)).
Proof. intro F. apply demo_check_ok with (vals := [20; 30]). vm_compute. reflexivity. Qed.

(** * C14 exponentiation *)
Theorem C14_exponentiation_sound : forall (F : Field), prime order -> forall x e, 0 <= e ->
  sound_call (exponentiation x e) (fun w r => ev w r = (ev w x ^ e) mod order).
Proof. intros F Hp x e He. apply to_call. intros w Hw. exact (snd_exponentiation Hp w Hw x e He). Qed.
Print Assumptions C14_exponentiation_sound.

Theorem C14_exponentiation_complete : forall (F : Field), prime order -> forall vals x e, 0 <= e ->
  good_inputs vals -> on_inputs vals x ->
  runs vals (exponentiation x e) (fun r v => e_evaluate v r = Ok ((wv vals x ^ e) mod order)).
Proof.
  intros F Hp vals x e He Hv Hx. apply (to_runs1 Hp); [exact Hv|].
  apply (cmpl_exponentiation Hp); [exact He|apply has_input; assumption].
Qed.
Print Assumptions C14_exponentiation_complete.

Example C14_example : let F : Field := F97 in demo [5] (exponentiation (e_wire 1) 11) (fun r => [r]) = Ok (true, [5 ^ 11 mod 97])
  /\ demo [5] (exponentiation (e_wire 1) 0) (fun r => [r]) = Ok (true, [1]).
Proof. vm_compute. auto. Qed.
Example C14_example_sat : let F : Field := F97 in sat_case (exponentiation (e_wire 1) 6) (fun w r => (ev w r =? 5 ^ 6 mod 97)).
Proof. intro F. apply demo_check_ok with (vals := [5]). vm_compute. reflexivity. Qed.

(** * C15 inverse, assert_nonzero, assert_nonequal *)
Theorem C15_inverse_sound : forall (F : Field), prime order -> forall x,
  sound_call (inverse x) (fun w r => ev w x <> 0 /\ (ev w x * ev w r) mod order = 1).
Proof.
  intros F Hp x. apply to_call. intros w Hw. eapply sound_weaken; [apply (snd_inverse Hp w Hw x)|].
  cbv beta. tauto.
Qed.
Print Assumptions C15_inverse_sound.

Theorem C15_inverse_complete : forall (F : Field), prime order -> 2 < order -> forall vals x,
  good_inputs vals -> on_inputs vals x -> wv vals x <> 0 ->
  runs vals (inverse x) (fun r v => exists y, e_evaluate v r = Ok y /\ 0 <= y < order /\ (wv vals x * y) mod order = 1).
Proof.
  intros F Hp H2 vals x Hv Hx Hn.
  eapply (to_runs Hp); [exact Hv|apply (cmpl_inverse Hp H2); [apply has_input; exact Hx|exact Hn]|].
  cbv beta. intros r s v Hr _ G. exists (finvv (wv vals x)). split; [apply (has_run Hp s); assumption|].
  split; [apply (finvv_infield Hp), (prime_ge2 Hp)|].
  apply (finvv_correct Hp); [apply (ev_infield (prime_ge2 Hp))|exact Hn].
Qed.
Print Assumptions C15_inverse_complete.

Theorem C15_assert_nonzero_sound : forall (F : Field), prime order -> forall x,
  sound_call (assert_nonzero x) (fun w _ => ev w x <> 0).
Proof. intros F Hp x. apply to_call. intros w Hw. exact (snd_assert_nonzero Hp w Hw x). Qed.
Print Assumptions C15_assert_nonzero_sound.

Theorem C15_assert_nonzero_complete : forall (F : Field), prime order -> 2 < order -> forall vals x,
  good_inputs vals -> on_inputs vals x -> wv vals x <> 0 -> runs vals (assert_nonzero x) (fun _ _ => True).
Proof.
  intros F Hp H2 vals x Hv Hx Hn. apply (to_runs0 Hp); [exact Hv|].
  eapply (cmpl_assert_nonzero Hp H2); [apply has_input; exact Hx|exact Hn].
Qed.
Print Assumptions C15_assert_nonzero_complete.

Theorem C15_assert_nonequal_sound : forall (F : Field), prime order -> forall x y,
  sound_call (assert_nonequal x y) (fun w _ => ev w x <> ev w y).
Proof. intros F Hp x y. apply to_call. intros w Hw. exact (snd_assert_nonequal Hp w Hw x y). Qed.
Print Assumptions C15_assert_nonequal_sound.

Theorem C15_assert_nonequal_complete : forall (F : Field), prime order -> 2 < order -> forall vals x y,
  good_inputs vals -> on_inputs vals x -> on_inputs vals y -> wv vals x <> wv vals y ->
  runs vals (assert_nonequal x y) (fun _ _ => True).
Proof.
  intros F Hp H2 vals x y Hv Hx Hy Hn. apply (to_runs0 Hp); [exact Hv|].
  eapply (cmpl_assert_nonequal Hp H2); [apply has_input; exact Hx|apply has_input; exact Hy|exact Hn].
Qed.
Print Assumptions C15_assert_nonequal_complete.

Example C15_example : let F : Field := F97 in demo [5] (inverse (e_wire 1)) (fun r => [r]) = Ok (true, [39])
  /\ demo [5; 6] (assert_nonequal (e_wire 1) (e_wire 2)) (fun r => []) = Ok (true, [])
  /\ demo [5; 5] (assert_nonequal (e_wire 1) (e_wire 2)) (fun r => []) = Panic.
Proof. vm_compute. auto. Qed.
Example C15_example_sat : let F : Field := F97 in sat_case (inverse (e_wire 1)) (fun w r => (ev w r =? 39)).
Proof. intro F. apply demo_check_ok with (vals := [5]). vm_compute. reflexivity. Qed.
Example C15_example_nonequal : let F : Field := F97 in sat_case (assert_nonequal (e_wire 1) (e_wire 2)) (fun w r => negb (ev w (e_wire 1) =? ev w (e_wire 2))).
Proof. intro F. apply demo_check_ok with (vals := [5; 6]). vm_compute. reflexivity. Qed.

(** * C16 nonzero, zero, equal *)
Theorem C16_nonzero_sound : forall (F : Field), prime order -> forall x,
  sound_call (nonzero x) (fun w r => ev w r = if ev w x =? 0 then 0 else 1).
Proof. intros F Hp x. apply to_call. intros w Hw. exact (snd_nonzero Hp w Hw x). Qed.
Print Assumptions C16_nonzero_sound.

Theorem C16_zero_sound : forall (F : Field), prime order -> forall x,
  sound_call (g_zero x) (fun w r => ev w r = if ev w x =? 0 then 1 else 0).
Proof. intros F Hp x. apply to_call. intros w Hw. exact (snd_zero Hp w Hw x). Qed.
Print Assumptions C16_zero_sound.

Theorem C16_equal_sound : forall (F : Field), prime order -> forall x y,
  sound_call (g_equal x y) (fun w r => ev w r = if ev w x =? ev w y then 1 else 0).
Proof. intros F Hp x y. apply to_call. intros w Hw. exact (snd_equal Hp w Hw x y). Qed.
Print Assumptions C16_equal_sound.

Theorem C16_nonzero_complete : forall (F : Field), prime order -> 2 < order -> forall vals x,
  good_inputs vals -> on_inputs vals x ->
  runs vals (nonzero x) (fun r v => e_evaluate v r = Ok (if wv vals x =? 0 then 0 else 1)).
Proof.
  intros F Hp H2 vals x Hv Hx. apply (to_runs1 Hp); [exact Hv|].
  apply (cmpl_nonzero Hp H2); apply has_input; assumption.
Qed.
Print Assumptions C16_nonzero_complete.

Theorem C16_zero_complete : forall (F : Field), prime order -> 2 < order -> forall vals x,
  good_inputs vals -> on_inputs vals x ->
  runs vals (g_zero x) (fun r v => e_evaluate v r = Ok (if wv vals x =? 0 then 1 else 0)).
Proof.
  intros F Hp H2 vals x Hv Hx. apply (to_runs1 Hp); [exact Hv|].
  apply (cmpl_zero Hp H2); apply has_input; assumption.
Qed.
Print Assumptions C16_zero_complete.

Theorem C16_equal_complete : forall (F : Field), prime order -> 2 < order -> forall vals x y,
  good_inputs vals -> on_inputs vals x -> on_inputs vals y ->
  runs vals (g_equal x y) (fun r v => e_evaluate v r = Ok (if wv vals x =? wv vals y then 1 else 0)).
Proof.
  intros F Hp H2 vals x y Hv Hx Hy. apply (to_runs1 Hp); [exact Hv|].
  apply (cmpl_equal Hp H2); apply has_input; assumption.
Qed.
Print Assumptions C16_equal_complete.

Example C16_example : let F : Field := F97 in
  demo [5; 5] (g_equal (e_wire 1) (e_wire 2)) (fun r => [r]) = Ok (true, [1]) /\
  demo [5; 6] (g_equal (e_wire 1) (e_wire 2)) (fun r => [r]) = Ok (true, [0]) /\
  demo [0] (nonzero (e_wire 1)) (fun r => [r]) = Ok (true, [0]) /\
  demo [0] (g_zero (e_wire 1)) (fun r => [r]) = Ok (true, [1]).
Proof. vm_compute. auto. Qed.
Example C16_example_sat : let F : Field := F97 in sat_case (g_equal (e_wire 1) (e_wire 2)) (fun w r => (ev w r =? 1)).
Proof. intro F. apply demo_check_ok with (vals := [5; 5]). vm_compute. reflexivity. Qed.

(** * C17 inverse_or_zero *)
(** Full statement (false, see the refutation): in every satisfying assignment the result is the inverse
    of x if x <> 0 and 0 if x = 0.  Only the first half holds. *)
Theorem C17_inverse_or_zero_sound_partial : forall (F : Field), prime order -> forall x,
  sound_call (inverse_or_zero x) (fun w r => ev w x <> 0 -> (ev w x * ev w r) mod order = 1).
Proof. intros F Hp x. apply to_call. intros w Hw. exact (snd_inverse_or_zero_nz Hp w Hw x). Qed.
Print Assumptions C17_inverse_or_zero_sound_partial.

Theorem C17_inverse_or_zero_complete : forall (F : Field), prime order -> 2 < order -> forall vals x,
  good_inputs vals -> on_inputs vals x ->
  runs vals (inverse_or_zero x) (fun r v => exists y, e_evaluate v r = Ok y /\ 0 <= y < order /\
    (if wv vals x =? 0 then y = 0 else (wv vals x * y) mod order = 1)).
Proof.
  intros F Hp H2 vals x Hv Hx.
  eapply (to_runs Hp); [exact Hv|apply (cmpl_inverse_or_zero Hp H2); apply has_input; exact Hx|].
  cbv beta. intros r s v Hr _ G. exists (finvv (wv vals x)). split; [apply (has_run Hp s); assumption|].
  split; [apply (finvv_infield Hp), (prime_ge2 Hp)|].
  destruct (Z.eqb_spec (wv vals x) 0) as [E|E].
  - rewrite E. unfold finvv. reflexivity.
  - apply (finvv_correct Hp); [apply (ev_infield (prime_ge2 Hp))|exact E].
Qed.
Print Assumptions C17_inverse_or_zero_complete.

(** For x = 0 every value is accepted, in every field and on every builder whose last wires are free. *)
Theorem C17_inverse_or_zero_refuted : exists (F : Field), prime order /\ exists b r b' w x,
  inverse_or_zero x b = Ok (r, b') /\ wf_witness w /\ sat w b' /\ ev w x = 0 /\ ev w r = 5.
Proof.
  exists F97. split; [exact prime_F97|].
  set (F := F97 : Field).
  destruct (@forge_check_ok F97 _ (mkB 2 [] []) [1; 0; 5; 0; 0] (inverse_or_zero (e_wire 1))
              (fun w r => (ev w (e_wire 1) =? 0) && (ev w r =? 5))) as (r & b' & E & W & S & P).
  - vm_compute. reflexivity.
  - rewrite andb_true_iff, !Z.eqb_eq in P. destruct P.
    exists (mkB 2 [] []), r, b', (wit [1; 0; 5; 0; 0]), (e_wire 1). repeat split; auto; apply W.
Qed.
Print Assumptions C17_inverse_or_zero_refuted.

Example C17_example : let F : Field := F97 in
  demo [0] (inverse_or_zero (e_wire 1)) (fun r => [r]) = Ok (true, [0]) /\
  demo [5] (inverse_or_zero (e_wire 1)) (fun r => [r]) = Ok (true, [39]).
Proof. vm_compute. auto. Qed.
Example C17_example_sat : let F : Field := F97 in sat_case (inverse_or_zero (e_wire 1)) (fun w r => (ev w r =? 39)).
Proof. intro F. apply demo_check_ok with (vals := [5]). vm_compute. reflexivity. Qed.

(** * C18 quotient *)
Theorem C18_quotient_sound : forall (F : Field), prime order -> forall x y,
  sound_call (quotient x y) (fun w r => ev w y <> 0 /\ (ev w r * ev w y) mod order = ev w x).
Proof. intros F Hp x y. apply to_call. intros w Hw. exact (snd_quotient Hp w Hw x y). Qed.
Print Assumptions C18_quotient_sound.

Lemma quotient_mul (F : Field) (Hp : prime order) a b : infield a -> infield b -> b <> 0 ->
  (((a * finvv b) mod order) * b) mod order = a.
Proof.
  intros Ia Ib Hb. rewrite Z.mul_mod_idemp_l by (pose proof (prime_ge2 Hp); lia).
  replace (a * finvv b * b) with (a * (b * finvv b)) by ring.
  rewrite <- Z.mul_mod_idemp_r by (pose proof (prime_ge2 Hp); lia).
  pose proof (finvv_correct Hp b Ib Hb) as E. unfold fmul in E. rewrite E, Z.mul_1_r. apply Z.mod_small. exact Ia.
Qed.

Theorem C18_quotient_complete : forall (F : Field), prime order -> 2 < order -> forall vals x y,
  good_inputs vals -> on_inputs vals x -> on_inputs vals y -> wv vals y <> 0 ->
  runs vals (quotient x y) (fun r v => exists q, e_evaluate v r = Ok q /\ 0 <= q < order /\ (q * wv vals y) mod order = wv vals x).
Proof.
  intros F Hp H2 vals x y Hv Hx Hy Hn.
  eapply (to_runs Hp); [exact Hv|eapply (cmpl_quotient Hp H2); [apply has_input; exact Hx|apply has_input; exact Hy|exact Hn]|].
  cbv beta. intros r s v Hr _ G. eexists. split; [apply (has_run Hp s); eassumption|].
  split; [apply Z.mod_pos_bound; pose proof (prime_ge2 Hp); lia|].
  apply quotient_mul; auto; apply (ev_infield (prime_ge2 Hp)).
Qed.
Print Assumptions C18_quotient_complete.

Example C18_example : let F : Field := F97 in demo [3; 5] (quotient (e_wire 1) (e_wire 2)) (fun r => [r]) = Ok (true, [20])
  /\ demo [3; 0] (quotient (e_wire 1) (e_wire 2)) (fun r => [r]) = Panic.
Proof. vm_compute. auto. Qed.
Example C18_example_sat : let F : Field := F97 in sat_case (quotient (e_wire 1) (e_wire 2)) (fun w r => (ev w r =? 20)).
Proof. intro F. apply demo_check_ok with (vals := [3; 5]). vm_compute. reflexivity. Qed.

(** * C19 quotient_unsafe *)
(** Full statement (false): in every satisfying assignment with y <> 0 the value is x/y.  The method adds
    no constraint at all, so every value is accepted. *)
Theorem C19_quotient_unsafe_unconstrained_refuted : forall (F : Field) x y b,
  exists q b', quotient_unsafe x y b = Ok (e_wire q, b') /\ q = next b /\ constraints b' = constraints b.
Proof. intros. eexists _, _. split; [reflexivity|]. split; reflexivity. Qed.
Print Assumptions C19_quotient_unsafe_unconstrained_refuted.

Theorem C19_quotient_unsafe_refuted : exists (F : Field), prime order /\ exists b r b' w x y,
  quotient_unsafe x y b = Ok (r, b') /\ wf_witness w /\ sat w b' /\ ev w y <> 0 /\
  (ev w r * ev w y) mod order <> ev w x.
Proof.
  exists F97. split; [exact prime_F97|].
  set (F := F97 : Field).
  destruct (@forge_check_ok F97 _ (mkB 3 [] []) [1; 3; 5; 7] (quotient_unsafe (e_wire 1) (e_wire 2))
              (fun w r => (ev w (e_wire 1) =? 3) && (ev w (e_wire 2) =? 5) && (ev w r =? 7))) as (r & b' & E & W & S & P).
  - vm_compute. reflexivity.
  - rewrite !andb_true_iff, !Z.eqb_eq in P. destruct P as [[P1 P2] P3].
    exists (mkB 3 [] []), r, b', (wit [1; 3; 5; 7]), (e_wire 1), (e_wire 2).
    rewrite P1, P2, P3. split; [exact E|]. split; [exact W|]. split; [exact S|]. vm_compute. split; discriminate.
Qed.
Print Assumptions C19_quotient_unsafe_refuted.

Theorem C19_quotient_unsafe_complete_partial : forall (F : Field), prime order -> 2 < order -> forall vals x y,
  good_inputs vals -> on_inputs vals x -> on_inputs vals y -> wv vals y <> 0 ->
  runs vals (quotient_unsafe x y) (fun r v => exists q, e_evaluate v r = Ok q /\ 0 <= q < order /\ (q * wv vals y) mod order = wv vals x).
Proof.
  intros F Hp H2 vals x y Hv Hx Hy Hn.
  eapply (to_runs Hp); [exact Hv|eapply (cmpl_quotient_unsafe Hp H2); [apply has_input; exact Hx|apply has_input; exact Hy|exact Hn]|].
  cbv beta. intros r s v Hr _ G. eexists. split; [apply (has_run Hp s); eassumption|].
  split; [apply Z.mod_pos_bound; pose proof (prime_ge2 Hp); lia|].
  apply quotient_mul; auto; apply (ev_infield (prime_ge2 Hp)).
Qed.
Print Assumptions C19_quotient_unsafe_complete_partial.

Example C19_example : let F : Field := F97 in demo [3; 5] (quotient_unsafe (e_wire 1) (e_wire 2)) (fun r => [r]) = Ok (true, [20]).
Proof. vm_compute. auto. Qed.

(** * C21 boolean gadgets *)
Theorem C21_and_sound : forall (F : Field), prime order -> forall x y, sound_call (b_and x y)
  (fun w r => is_bit (ev w x) -> is_bit (ev w y) -> ev w r = if (ev w x =? 1) && (ev w y =? 1) then 1 else 0).
Proof.
  intros F Hp x y b r b' w E Hw Hs Bx By. rewrite (snd_and Hp w Hw x y Bx By b r b' E Hs).
  destruct Bx as [-> | ->], By as [-> | ->]; reflexivity.
Qed.
Print Assumptions C21_and_sound.

Theorem C21_or_sound : forall (F : Field), prime order -> forall x y, sound_call (b_or x y)
  (fun w r => is_bit (ev w x) -> is_bit (ev w y) -> ev w r = if (ev w x =? 1) || (ev w y =? 1) then 1 else 0).
Proof.
  intros F Hp x y b r b' w E Hw Hs Bx By. rewrite (snd_or Hp w Hw x y Bx By b r b' E Hs).
  destruct Bx as [-> | ->], By as [-> | ->]; reflexivity.
Qed.
Print Assumptions C21_or_sound.

Theorem C21_xor_sound : forall (F : Field), prime order -> 2 < order -> forall x y, sound_call (b_xor x y)
  (fun w r => is_bit (ev w x) -> is_bit (ev w y) -> ev w r = if xorb (ev w x =? 1) (ev w y =? 1) then 1 else 0).
Proof.
  intros F Hp H2 x y b r b' w E Hw Hs Bx By. rewrite (snd_xor Hp w Hw x y Bx By b r b' E Hs).
  destruct Bx as [-> | ->], By as [-> | ->]; reflexivity.
Qed.
Print Assumptions C21_xor_sound.

Theorem C21_not_sound : forall (F : Field), prime order -> forall x, sound_call (b_not x)
  (fun w r => is_bit (ev w x) -> ev w r = if ev w x =? 1 then 0 else 1).
Proof.
  intros F Hp x b r b' w E Hw Hs Bx. rewrite (snd_not Hp w Hw x Bx b r b' E Hs).
  destruct Bx as [-> | ->]; reflexivity.
Qed.
Print Assumptions C21_not_sound.

Theorem C21_selection_sound : forall (F : Field), prime order -> forall c x y, sound_call (selection c x y)
  (fun w r => is_bit (ev w c) -> ev w r = if ev w c =? 1 then ev w x else ev w y).
Proof. intros F Hp c x y b r b' w E Hw Hs Bc. exact (snd_selection Hp w Hw c x y Bc b r b' E Hs). Qed.
Print Assumptions C21_selection_sound.

Theorem C21_and_complete : forall (F : Field), prime order -> forall vals x y,
  good_inputs vals -> on_inputs vals x -> on_inputs vals y -> is_bit (wv vals x) -> is_bit (wv vals y) ->
  runs vals (b_and x y) (fun r v => e_evaluate v r = Ok (if (wv vals x =? 1) && (wv vals y =? 1) then 1 else 0)).
Proof.
  intros F Hp vals x y Hv Hx Hy Bx By. apply (to_runs1 Hp); [exact Hv|].
  match goal with |- context [has _ _ ?c] => replace c with (wv vals x * wv vals y) by (destruct Bx as [-> | ->], By as [-> | ->]; reflexivity) end.
  apply (cmpl_and Hp); auto; apply has_input; assumption.
Qed.
Print Assumptions C21_and_complete.

Theorem C21_or_complete : forall (F : Field), prime order -> forall vals x y,
  good_inputs vals -> on_inputs vals x -> on_inputs vals y -> is_bit (wv vals x) -> is_bit (wv vals y) ->
  runs vals (b_or x y) (fun r v => e_evaluate v r = Ok (if (wv vals x =? 1) || (wv vals y =? 1) then 1 else 0)).
Proof.
  intros F Hp vals x y Hv Hx Hy Bx By. apply (to_runs1 Hp); [exact Hv|].
  match goal with |- context [has _ _ ?c] => replace c with (Z.max (wv vals x) (wv vals y)) by (destruct Bx as [-> | ->], By as [-> | ->]; reflexivity) end.
  apply (cmpl_or Hp); auto; apply has_input; assumption.
Qed.
Print Assumptions C21_or_complete.

Theorem C21_xor_complete : forall (F : Field), prime order -> 2 < order -> forall vals x y,
  good_inputs vals -> on_inputs vals x -> on_inputs vals y -> is_bit (wv vals x) -> is_bit (wv vals y) ->
  runs vals (b_xor x y) (fun r v => e_evaluate v r = Ok (if xorb (wv vals x =? 1) (wv vals y =? 1) then 1 else 0)).
Proof.
  intros F Hp H2 vals x y Hv Hx Hy Bx By. apply (to_runs1 Hp); [exact Hv|].
  match goal with |- context [has _ _ ?c] => replace c with (if wv vals x =? wv vals y then 0 else 1) by (destruct Bx as [-> | ->], By as [-> | ->]; reflexivity) end.
  apply (cmpl_xor Hp H2); auto; apply has_input; assumption.
Qed.
Print Assumptions C21_xor_complete.

Theorem C21_not_complete : forall (F : Field), prime order -> forall vals x,
  good_inputs vals -> on_inputs vals x -> is_bit (wv vals x) ->
  runs vals (b_not x) (fun r v => e_evaluate v r = Ok (if wv vals x =? 1 then 0 else 1)).
Proof.
  intros F Hp vals x Hv Hx Bx. apply (to_runs1 Hp); [exact Hv|].
  match goal with |- context [has _ _ ?c] => replace c with (1 - wv vals x) by (destruct Bx as [-> | ->]; reflexivity) end.
  apply (cmpl_not Hp); auto; apply has_input; assumption.
Qed.
Print Assumptions C21_not_complete.

Theorem C21_selection_complete : forall (F : Field), prime order -> forall vals c x y,
  good_inputs vals -> on_inputs vals c -> on_inputs vals x -> on_inputs vals y -> is_bit (wv vals c) ->
  runs vals (selection c x y) (fun r v => e_evaluate v r = Ok (if wv vals c =? 1 then wv vals x else wv vals y)).
Proof.
  intros F Hp vals c x y Hv Hc Hx Hy Bc. apply (to_runs1 Hp); [exact Hv|].
  apply (cmpl_selection Hp); auto; apply has_input; assumption.
Qed.
Print Assumptions C21_selection_complete.

(** xor cannot be built at all in the field of order 2. *)
Theorem C21_xor_order2_refuted : @b_xor (mkField 2) (e_wire 1) (e_wire 2) (mkB 3 [] []) = Panic.
Proof. vm_compute. reflexivity. Qed.

Example C21_example : let F : Field := F97 in
  demo [1; 0] (b_xor (e_wire 1) (e_wire 2)) (fun r => [r]) = Ok (true, [1]) /\
  demo [1; 1] (b_xor (e_wire 1) (e_wire 2)) (fun r => [r]) = Ok (true, [0]) /\
  demo [1; 0] (b_or (e_wire 1) (e_wire 2)) (fun r => [r]) = Ok (true, [1]) /\
  demo [1; 0] (b_and (e_wire 1) (e_wire 2)) (fun r => [r]) = Ok (true, [0]) /\
  demo [0; 7; 9] (selection (e_wire 1) (e_wire 2) (e_wire 3)) (fun r => [r]) = Ok (true, [9]) /\
  demo [1; 7; 9] (selection (e_wire 1) (e_wire 2) (e_wire 3)) (fun r => [r]) = Ok (true, [7]).
Proof. vm_compute. repeat split. Qed.
Example C21_example_sat : let F : Field := F97 in sat_case (b_xor (e_wire 1) (e_wire 2)) (fun w r => (ev w r =? 1)).
Proof. intro F. apply demo_check_ok with (vals := [0; 1]). vm_compute. reflexivity. Qed.

(** * C22 boolean wires and basic assertions *)
(** The constraint added by each assertion holds exactly when the condition does; nothing else is added. *)
Definition asserts_exactly {F : Field} {A} (m : B A) (R : witness -> Prop) : Prop :=
  forall b, exists r c, m b = Ok (r, mkB (next b) (constraints b ++ [c]) (generators b)) /\
    forall w, wf_witness w -> (sat1 w c <-> R w).

Theorem C22_assert_boolean_exact : forall (F : Field), prime order -> forall x,
  asserts_exactly (assert_boolean x) (fun w => is_bit (ev w x)).
Proof.
  intros F Hp x b. eexists _, _. split; [reflexivity|]. intros w Hw. split.
  - intro H. apply (snd_assert_boolean Hp w Hw x (mkB 0 [] []) x (mkB 0 [mkC x (e_sub x e_one) e_zero] [])); [reflexivity|].
    constructor; [exact H|constructor].
  - unfold sat1. cbn [c_a c_b c_c]. rewrite (ev_sub_mod Hp w), (ev_one_ Hp w Hw), (ev_zero (prime_ge2 Hp)).
    intros [-> | ->]; pose proof (prime_ge2 Hp).
    + rewrite Z.mul_0_l. apply Z.mod_0_l. lia.
    + rewrite Z.mod_0_l by lia. reflexivity.
Qed.
Print Assumptions C22_assert_boolean_exact.

Theorem C22_assert_equal_exact : forall (F : Field), prime order -> forall x y,
  asserts_exactly (assert_equal x y) (fun w => ev w x = ev w y).
Proof.
  intros F Hp x y b. eexists _, _. split; [reflexivity|]. intros w Hw.
  unfold sat1. cbn [c_a c_b c_c]. rewrite (ev_one_ Hp w Hw), Z.mul_1_r, (ev_mod Hp w). reflexivity.
Qed.
Print Assumptions C22_assert_equal_exact.

Theorem C22_assert_zero_exact : forall (F : Field), prime order -> forall x,
  asserts_exactly (assert_zero x) (fun w => ev w x = 0).
Proof.
  intros F Hp x b. destruct (C22_assert_equal_exact F Hp x e_zero b) as (r & c & E & H).
  exists r, c. split; [exact E|]. intros w Hw. rewrite (H w Hw), (ev_zero (prime_ge2 Hp)). reflexivity.
Qed.
Print Assumptions C22_assert_zero_exact.

Theorem C22_assert_true_exact : forall (F : Field), prime order -> forall x,
  asserts_exactly (assert_true x) (fun w => ev w x = 1).
Proof.
  intros F Hp x b. destruct (C22_assert_equal_exact F Hp x e_one b) as (r & c & E & H).
  exists r, c. split; [exact E|]. intros w Hw. rewrite (H w Hw), (ev_one_ Hp w Hw). reflexivity.
Qed.
Print Assumptions C22_assert_true_exact.

Theorem C22_assert_false_exact : forall (F : Field), prime order -> forall x,
  asserts_exactly (assert_false x) (fun w => ev w x = 0).
Proof.
  intros F Hp x b. destruct (C22_assert_equal_exact F Hp x e_zero b) as (r & c & E & H).
  exists r, c. split; [exact E|]. intros w Hw. rewrite (H w Hw), (ev_zero (prime_ge2 Hp)). reflexivity.
Qed.
Print Assumptions C22_assert_false_exact.

Theorem C22_boolean_wire_sound : forall (F : Field), prime order ->
  sound_call boolean_wire (fun w k => is_bit (w k)).
Proof. intros F Hp. apply to_call. intros w Hw. exact (snd_boolean_wire Hp w Hw). Qed.
Print Assumptions C22_boolean_wire_sound.

Theorem C22_binary_wire_sound : forall (F : Field), prime order -> forall n,
  sound_call (binary_wire n) (fun w ks => length ks = n /\ Forall (fun k => is_bit (w k)) ks).
Proof.
  intros F Hp n. apply to_call. intros w Hw. eapply sound_weaken; [apply (snd_binary_wire Hp w Hw n)|].
  cbv beta. intros ks [L H]. split; [exact L|]. unfold bin_ok, bin_of_wires in H. rewrite Forall_map in H.
  eapply Forall_impl; [|exact H]. cbv beta. intros k Hk. rewrite (ev_wire_ Hp w Hw) in Hk. exact Hk.
Qed.
Print Assumptions C22_binary_wire_sound.

Example C22_example_sat : let F : Field := F97 in sat_case (binary_wire 3) (fun w r => forallb (fun k => w k =? 1) r).
Proof. intro F. apply forge_case with (b := mkB 1 [] []) (l := [1; 1; 1; 1]). vm_compute. reflexivity. Qed.
