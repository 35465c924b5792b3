(** C63-C67: exactly what the constraints of each gadget accept. *)
From Coq Require Import ZArith List Bool Arith Lia Znumtheory Permutation.
From Verif Require Import Base FieldM FieldP ExprM BuilderM GadgetsM CurveM WaksmanM Spec SpecCurve ExprP BitsP LocalP SoundP CmpP GadgetSoundP HonestP
  CompleteP CmpCompleteP GadgetCompleteP SatP ForgeP Demo PropLib WaksmanP SortP ProgramP SpecCrypto CurveP PropsCurve.
Import ListNotations.
Open Scope Z_scope.

(** On every builder and every assignment that meets [Pre], the results that satisfying assignments can give to the call are
    exactly those in [Out] (a relation of the values the assignment already has): no other result is accepted, and each
    of them is accepted, without changing any existing wire. *)
Definition allows_exactly {F : Field} {A V} (m : B A) (Pre : nat -> witness -> Prop) (val : witness -> A -> V) (Out : witness -> V -> Prop) : Prop :=
  (forall b r b' w, m b = Ok (r, b') -> wf_witness w -> sat w b' -> Pre (next b) w -> Out w (val w r)) /\
  (forall z, sat_call m (fun n w => Pre n w /\ Out w z) (fun w r => val w r = z)).

(** The same for assertions: satisfiable exactly when the condition holds. *)
Definition asserts_exactly {F : Field} {A} (m : B A) (Pre : nat -> witness -> Prop) (P : witness -> Prop) : Prop :=
  (forall b r b' w, m b = Ok (r, b') -> wf_witness w -> sat w b' -> Pre (next b) w -> P w) /\
  sat_call m (fun n w => Pre n w /\ P w) (fun _ _ => True).

Definition uses {F : Field} (es : list expr) (n : nat) (_ : witness) : Prop := Forall (below n) es.
Definition bits_of {F : Field} (es : list expr) (w : witness) : Prop := Forall (fun e => is_bit (ev w e)) es.

Section Tools.
Context {F : Field} (Hp : prime order).
Let Hord : 2 <= order := prime_ge2 Hp.

Lemma exact_det (m : B expr) Pre f :
  (forall w, wf_witness w -> (exists n, Pre n w) -> sound w m (fun r => ev w r = f w)) ->
  (forall s, good s -> Pre (nx s) (wt s) -> csat s m (fun r s' => has s' r (f (wt s)))) ->
  allows_exactly m Pre ev (fun w z => z = f w).
Proof.
  intros H1 H2. split.
  - intros b r b' w E Hw Hs HP. exact (H1 w Hw (ex_intro _ _ HP) b r b' E Hs).
  - intro z. apply to_sat_call. intros s G [HP ->]. eapply csat_weaken; [apply H2; assumption|]. cbv beta. intros r s1 _ _ [_ E]. exact E.
Qed.
Lemma exact_assert {A} (m : B A) Pre P :
  (forall w, wf_witness w -> (exists n, Pre n w) -> sound w m (fun _ => P w)) ->
  (forall s, good s -> Pre (nx s) (wt s) -> P (wt s) -> csat s m (fun _ _ => True)) ->
  asserts_exactly m Pre P.
Proof.
  intros H1 H2. split.
  - intros b r b' w E Hw Hs HP. exact (H1 w Hw (ex_intro _ _ HP) b r b' E Hs).
  - apply to_sat_call. intros s G [HP HP']. apply H2; assumption.
Qed.
Lemma uses_has s es : uses es (nx s) (wt s) -> forall e, In e es -> has s e (ev (wt s) e).
Proof. intros H e He. unfold uses in H. rewrite Forall_forall in H. apply (has_below (nx s) (wt s) s); auto. Qed.
Lemma uses_hasl s es : uses es (nx s) (wt s) -> hasl s es (map (ev (wt s)) es).
Proof. intro H. apply Forall2_nth_hasl; [reflexivity|exact H]. Qed.
Lemma infield_ev w e : 0 <= ev w e < order.
Proof using Hord. apply (ev_infield Hord). Qed.
End Tools.

Ltac has_u := match goal with H : uses _ (nx ?s) (wt ?s) |- has ?s _ _ => apply (uses_has _ _ H); cbn; auto end.
Ltac via_comp := apply csat_comp; [local|].

(** ** C63: field and boolean gadgets *)
Theorem C63_field_gadgets : forall (F : Field), prime order -> 2 < order -> forall x y,
  allows_exactly (product x y) (uses [x; y]) ev (fun w z => z = (ev w x * ev w y) mod order) /\
  (forall e, 0 <= e -> allows_exactly (exponentiation x e) (uses [x]) ev (fun w z => z = (ev w x ^ e) mod order)) /\
  allows_exactly (inverse x) (uses [x]) ev (fun w z => 0 <= z < order /\ (ev w x * z) mod order = 1) /\
  allows_exactly (quotient x y) (uses [x; y]) ev (fun w z => 0 <= z < order /\ ev w y <> 0 /\ (z * ev w y) mod order = ev w x) /\
  allows_exactly (inverse_or_zero x) (uses [x]) ev (fun w z => 0 <= z < order /\ (ev w x <> 0 -> (ev w x * z) mod order = 1)) /\
  allows_exactly (quotient_unsafe x y) (uses [x; y]) ev (fun w z => 0 <= z < order).
Proof.
  intros F Hp H2 x y. pose proof (prime_ge2 Hp) as Hord. split; [|split; [|split; [|split; [|split]]]].
  - apply exact_det.
    + intros w Hw _. apply (snd_product Hp w Hw).
    + intros s G U. via_comp. apply (cmpl_product Hp); has_u.
  - intros e He. apply exact_det.
    + intros w Hw _. apply (snd_exponentiation Hp w Hw). exact He.
    + intros s G U. via_comp. apply (cmpl_exponentiation Hp); [exact He|has_u].
  - split.
    + intros b r b' w E Hw Hs _. split; [apply (infield_ev Hp)|]. exact (proj1 (snd_inverse Hp w Hw x b r b' E Hs)).
    + intro z. apply to_sat_call. intros s G [U [Iz E]].
      assert (Nz : ev (wt s) x <> 0). { intro Z0. rewrite Z0, Z.mul_0_l, Z.mod_0_l in E by lia. discriminate. }
      eapply csat_weaken; [via_comp; apply (cmpl_inverse Hp H2); [has_u|exact Nz]|]. cbv beta. intros r s1 _ _ [_ Er]. rewrite Er.
      pose proof (infield_ev Hp (wt s) x) as Ix. rewrite (inv_unique Hp (ev (wt s) x) z) by (unfold infield; auto).
      apply (inv_unique Hp); [exact Ix|apply (finvv_infield Hp); exact Hord|exact Nz|]. apply (finvv_correct Hp); assumption.
  - split.
    + intros b r b' w E Hw Hs _. split; [apply (infield_ev Hp)|]. exact (snd_quotient Hp w Hw x y b r b' E Hs).
    + intro z. apply to_sat_call. intros s G [U (Iz & Ny & E)].
      pose proof (infield_ev Hp (wt s) x) as Ix. pose proof (infield_ev Hp (wt s) y) as Iy.
      eapply csat_weaken; [via_comp; apply (cmpl_quotient Hp H2) with (a := ev (wt s) x) (b := ev (wt s) y); [has_u|has_u|exact Ny]|].
      cbv beta. intros r s1 _ _ [_ Er]. rewrite Er, <- E, Zmult_mod_idemp_l, <- Z.mul_assoc, <- Zmult_mod_idemp_r.
      fold (fmul (ev (wt s) y) (finvv (ev (wt s) y))). rewrite (finvv_correct Hp) by assumption. rewrite Z.mul_1_r. apply Z.mod_small. exact Iz.
  - split.
    + intros b r b' w E Hw Hs _. split; [apply (infield_ev Hp)|]. exact (snd_inverse_or_zero_nz Hp w Hw x b r b' E Hs).
    + intro z. apply to_sat_call. intros s G [U [Iz E]]. pose proof (infield_ev Hp (wt s) x) as Ix.
      destruct (Z.eq_dec (ev (wt s) x) 0) as [Z0|Nz].
      * eapply csat_weaken; [apply (fs_inverse_or_zero Hp H2) with (c := z); [rewrite <- Z0; has_u|exact Iz]|].
        cbv beta. intros r s1 _ _ [_ Er]. exact Er.
      * specialize (E Nz). eapply csat_weaken; [via_comp; apply (cmpl_inverse_or_zero Hp H2); has_u|]. cbv beta. intros r s1 _ _ [_ Er]. rewrite Er.
        rewrite (inv_unique Hp (ev (wt s) x) z) by (unfold infield; auto).
        apply (inv_unique Hp); [exact Ix|apply (finvv_infield Hp); exact Hord|exact Nz|]. apply (finvv_correct Hp); assumption.
  - split.
    + intros b r b' w E Hw Hs _. apply (infield_ev Hp).
    + intro z. apply to_sat_call. intros s G [U Iz]. eapply csat_weaken; [apply (fs_quotient_unsafe Hp) with (c := z); exact Iz|].
      cbv beta. intros r s1 _ _ [_ Er]. exact Er.
Qed.
Print Assumptions C63_field_gadgets.

Theorem C63_tests : forall (F : Field), prime order -> 2 < order -> forall x y,
  allows_exactly (nonzero x) (uses [x]) ev (fun w z => z = if ev w x =? 0 then 0 else 1) /\
  allows_exactly (g_zero x) (uses [x]) ev (fun w z => z = if ev w x =? 0 then 1 else 0) /\
  allows_exactly (g_equal x y) (uses [x; y]) ev (fun w z => z = if ev w x =? ev w y then 1 else 0).
Proof.
  intros F Hp H2 x y. split; [|split]; apply exact_det.
  - intros w Hw _. apply (snd_nonzero Hp w Hw).
  - intros s G U. via_comp. apply (cmpl_nonzero Hp H2). has_u.
  - intros w Hw _. apply (snd_zero Hp w Hw).
  - intros s G U. via_comp. apply (cmpl_zero Hp H2). has_u.
  - intros w Hw _. apply (snd_equal Hp w Hw).
  - intros s G U. via_comp. apply (cmpl_equal Hp H2); has_u.
Qed.
Print Assumptions C63_tests.

Theorem C63_boolean_gadgets : forall (F : Field), prime order -> 2 < order -> forall x y u v,
  let on2 := fun n w => uses [x; y] n w /\ bits_of [x; y] w in
  allows_exactly (b_not x) (fun n w => uses [x] n w /\ bits_of [x] w) ev (fun w z => z = 1 - ev w x) /\
  allows_exactly (b_and x y) on2 ev (fun w z => z = ev w x * ev w y) /\
  allows_exactly (b_or x y) on2 ev (fun w z => z = Z.max (ev w x) (ev w y)) /\
  allows_exactly (b_xor x y) on2 ev (fun w z => z = if ev w x =? ev w y then 0 else 1) /\
  allows_exactly (selection x u v) (fun n w => uses [x; u; v] n w /\ bits_of [x] w) ev (fun w z => z = if ev w x =? 1 then ev w u else ev w v).
Proof.
  intros F Hp H2 x y u v on2.
  assert (B2 : forall w, bits_of [x; y] w -> is_bit (ev w x) /\ is_bit (ev w y)) by (intros w H; inversion H as [|? ? A H']; inversion H'; auto).
  assert (B1 : forall w, bits_of [x] w -> is_bit (ev w x)) by (intros w H; inversion H; auto).
  split; [|split; [|split; [|split]]]; apply exact_det.
  - intros w Hw [n [_ B]]. apply (snd_not Hp w Hw). auto.
  - intros s G [U B]. via_comp. apply (cmpl_not Hp); [has_u|auto].
  - intros w Hw [n [_ B]]. apply B2 in B. apply (snd_and Hp w Hw); tauto.
  - intros s G [U B]. apply B2 in B. via_comp. apply (cmpl_and Hp); try has_u; tauto.
  - intros w Hw [n [_ B]]. apply B2 in B. apply (snd_or Hp w Hw); tauto.
  - intros s G [U B]. apply B2 in B. via_comp. apply (cmpl_or Hp); try has_u; tauto.
  - intros w Hw [n [_ B]]. apply B2 in B. apply (snd_xor Hp w Hw); tauto.
  - intros s G [U B]. apply B2 in B. via_comp. apply (cmpl_xor Hp H2); try has_u; tauto.
  - intros w Hw [n [_ B]]. apply (snd_selection Hp w Hw). auto.
  - intros s G [U B]. via_comp. apply (cmpl_selection Hp); try has_u; auto.
Qed.
Print Assumptions C63_boolean_gadgets.

Theorem C63_assertions : forall (F : Field), prime order -> 2 < order -> forall x y z,
  asserts_exactly (assert_product x y z) (uses [x; y; z]) (fun w => (ev w x * ev w y) mod order = ev w z) /\
  asserts_exactly (assert_equal x y) (uses [x; y]) (fun w => ev w x = ev w y) /\
  asserts_exactly (assert_nonequal x y) (uses [x; y]) (fun w => ev w x <> ev w y) /\
  asserts_exactly (assert_zero x) (uses [x]) (fun w => ev w x = 0) /\
  asserts_exactly (assert_nonzero x) (uses [x]) (fun w => ev w x <> 0) /\
  asserts_exactly (assert_boolean x) (uses [x]) (fun w => is_bit (ev w x)) /\
  asserts_exactly (assert_true x) (uses [x]) (fun w => ev w x = 1) /\
  asserts_exactly (assert_false x) (uses [x]) (fun w => ev w x = 0).
Proof.
  intros F Hp H2 x y z.
  split; [|split; [|split; [|split; [|split; [|split; [|split]]]]]]; apply exact_assert.
  - intros w Hw _. apply sound_assert_product.
  - intros s G U E. eapply csat_weaken; [eapply csat_assert_product; [has_u|has_u|has_u|symmetry; exact E]|]. auto.
  - intros w Hw _. apply (snd_assert_equal Hp w Hw).
  - intros s G U E. eapply csat_weaken; [eapply (fs_assert_equal Hp); [has_u|rewrite E; has_u]|]. auto.
  - intros w Hw _. apply (snd_assert_nonequal Hp w Hw).
  - intros s G U E. via_comp. eapply (cmpl_assert_nonequal Hp H2); [has_u|has_u|exact E].
  - intros w Hw _. apply (snd_assert_zero Hp w Hw).
  - intros s G U E. via_comp. eapply comp_weaken; [apply (cmpl_assert_zero Hp); rewrite <- E; has_u|]. cbv beta. intros ? P' s' _ _ [-> _]. split; auto.
  - intros w Hw _. apply (snd_assert_nonzero Hp w Hw).
  - intros s G U E. via_comp. eapply (cmpl_assert_nonzero Hp H2); [has_u|exact E].
  - intros w Hw _. eapply sound_weaken; [apply (snd_assert_boolean Hp w Hw)|]. cbv beta. tauto.
  - intros s G U E. eapply csat_weaken; [eapply (fs_assert_boolean Hp); [has_u|exact E]|]. auto.
  - intros w Hw _. apply (snd_assert_true Hp w Hw).
  - intros s G U E. eapply csat_weaken; [apply (fs_assert_true Hp); rewrite <- E; has_u|]. auto.
  - intros w Hw _. apply (snd_assert_false Hp w Hw).
  - intros s G U E. via_comp. eapply comp_weaken; [apply (cmpl_assert_false Hp); rewrite <- E; has_u|]. cbv beta. intros ? P' s' _ _ [-> _]. split; auto.
Qed.
Print Assumptions C63_assertions.

Lemma below_wires (F : Field) es n w : forallb (fun e => forallb (fun k => (k <? n)%nat) (e_deps e)) es = true -> uses es n w.
Proof.
  intro H. apply Forall_forall. intros e He. rewrite forallb_forall in H. specialize (H e He). rewrite forallb_forall in H.
  intros k Hk. apply Nat.ltb_lt, (H k Hk).
Qed.

(** Concrete cases with their values: a product, both an inverse and the unconstrained value at zero, a failing assertion. *)
Example C63_example : let F : Field := F97 in
  uses [e_wire 1; e_wire 2] 3 (input_witness [42; 43]) /\ wf_witness (input_witness [42; 43]) /\
  (42 * 43) mod 97 = 60 /\ (42 * 67) mod order = 1 /\ 2 < order.
Proof.
  intro F. split; [|split; [apply (wf_input prime_F97); repeat constructor; cbn; lia|vm_compute; auto]].
  apply (below_wires F97); vm_compute; reflexivity.
Qed.

(** ** C64: comparisons *)
Section Compare.
Context {F : Field} (Hp : prime order) (H4 : (4 <= max_bits)%nat).
Let H2 : 2 < order := max_bits_odd H4.
Let Hord : 2 <= order := prime_ge2 Hp.

(** The operand that is split without a range check can also be read as its value plus the order. *)
Definition alias_fits (w : witness) (e : expr) : Prop := ev w e + order < 2 ^ Z.of_nat max_bits.

Lemma exact_less x y strict : allows_exactly (cmp x y true strict) (uses [x; y]) ev (fun w z =>
  z = 1 - b2z strict \/ (z = b2z strict /\ if strict then ev w x < ev w y else ev w y < ev w x \/ alias_fits w x)).
Proof using Hp H4.
  clear Hord. split.
  - intros b r b' w E Hw Hs _. destruct strict.
    + destruct (snd_lt Hp w Hw x y b r b' E Hs) as [[B|B] K]; [left|right]; cbn [b2z]; auto.
    + destruct (snd_le Hp w Hw x y b r b' E Hs) as [[B|B] K]; [right|left]; cbn [b2z]; auto.
  - intro z. apply to_sat_call. intros s G [U HZ].
    assert (Hx : has s x (ev (wt s) x)) by has_u. assert (Hy : has s y (ev (wt s) y)) by has_u.
    pose proof (infield_ev Hp (wt s) x) as Ix. pose proof (infield_ev Hp (wt s) y) as Iy.
    assert (K : forall A, (A = ev (wt s) x \/ (A = ev (wt s) x + order /\ A < 2 ^ Z.of_nat max_bits)) -> cmp_result true strict A (ev (wt s) y) z ->
      csat s (cmp x y true strict) (fun r s' => ev (wt s') r = z)).
    { intros A HA HR. eapply csat_weaken; [eapply (fs_cmp_less Hp H2) with (A := A); [exact H4|exact Hx|exact Hy|exact HA|exact HR]|].
      cbv beta. intros e s1 _ _ [_ He]. exact He. }
    destruct HZ as [HZ|[HZ HC]]; [apply (K (ev (wt s) x)); [auto|left; exact HZ]|]. destruct strict; cbn [b2z] in *.
    + apply (K (ev (wt s) x)); [auto|right; auto].
    + destruct HC as [HC|HC]; [apply (K (ev (wt s) x)); [auto|right; auto]|]. unfold alias_fits in HC.
      apply (K (ev (wt s) x + order)); [auto|right; split; [exact HZ|cbn [Bool.eqb]; lia]].
Qed.

Lemma exact_greater x y strict : allows_exactly (cmp x y false strict) (uses [x; y]) ev (fun w z =>
  z = 1 - b2z strict \/ (z = b2z strict /\ if strict then ev w y < ev w x else ev w x < ev w y \/ alias_fits w y)).
Proof using Hp H4.
  clear Hord. split.
  - intros b r b' w E Hw Hs _. destruct strict.
    + destruct (snd_gt Hp w Hw x y b r b' E Hs) as [[B|B] K]; [left|right]; cbn [b2z]; auto.
    + destruct (snd_ge Hp w Hw x y b r b' E Hs) as [[B|B] K]; [right|left]; cbn [b2z]; auto.
  - intro z. apply to_sat_call. intros s G [U HZ].
    assert (Hx : has s x (ev (wt s) x)) by has_u. assert (Hy : has s y (ev (wt s) y)) by has_u.
    pose proof (infield_ev Hp (wt s) x) as Ix. pose proof (infield_ev Hp (wt s) y) as Iy.
    assert (K : forall A, (A = ev (wt s) y \/ (A = ev (wt s) y + order /\ A < 2 ^ Z.of_nat max_bits)) -> cmp_result false strict (ev (wt s) x) A z ->
      csat s (cmp x y false strict) (fun r s' => ev (wt s') r = z)).
    { intros A HA HR. eapply csat_weaken; [eapply (fs_cmp_greater Hp H2) with (A := A); [exact H4|exact Hx|exact Hy|exact HA|exact HR]|].
      cbv beta. intros e s1 _ _ [_ He]. exact He. }
    destruct HZ as [HZ|[HZ HC]]; [apply (K (ev (wt s) y)); [auto|left; exact HZ]|]. destruct strict; cbn [b2z] in *.
    + apply (K (ev (wt s) y)); [auto|right; auto].
    + destruct HC as [HC|HC]; [apply (K (ev (wt s) y)); [auto|right; auto]|]. unfold alias_fits in HC.
      apply (K (ev (wt s) y + order)); [auto|right; split; [exact HZ|cbn [Bool.eqb]; lia]].
Qed.
End Compare.

(** The results the constraints admit: lt and gt can be denied but not claimed; le and ge can always be claimed. *)
Theorem C64_compare : forall (F : Field), prime order -> (4 <= max_bits)%nat -> forall x y,
  allows_exactly (lt x y) (uses [x; y]) ev (fun w z => z = 0 \/ (z = 1 /\ ev w x < ev w y)) /\
  allows_exactly (gt x y) (uses [x; y]) ev (fun w z => z = 0 \/ (z = 1 /\ ev w y < ev w x)) /\
  allows_exactly (le x y) (uses [x; y]) ev (fun w z => z = 1 \/ (z = 0 /\ (ev w y < ev w x \/ ev w x + order < 2 ^ Z.of_nat max_bits))) /\
  allows_exactly (ge x y) (uses [x; y]) ev (fun w z => z = 1 \/ (z = 0 /\ (ev w x < ev w y \/ ev w y + order < 2 ^ Z.of_nat max_bits))).
Proof.
  intros F Hp H4 x y. split; [|split; [|split]].
  - exact (exact_less Hp H4 x y true).
  - exact (exact_greater Hp H4 x y true).
  - exact (exact_less Hp H4 x y false).
  - exact (exact_greater Hp H4 x y false).
Qed.
Print Assumptions C64_compare.

Theorem C64_compare_binary : forall (F : Field), prime order -> forall x y,
  length x = length y -> (0 < length x)%nat -> (S (cmp_chunk_bits (length x)) < max_bits)%nat ->
  let on2 := fun n w => uses (x ++ y) n w /\ bits_of (x ++ y) w in
  allows_exactly (lt_binary x y) on2 ev (fun w z => z = 0 \/ (z = 1 /\ bin_val w x < bin_val w y)) /\
  allows_exactly (gt_binary x y) on2 ev (fun w z => z = 0 \/ (z = 1 /\ bin_val w y < bin_val w x)) /\
  allows_exactly (le_binary x y) on2 ev (fun w z => z = 1 \/ (z = 0 /\ bin_val w y < bin_val w x)) /\
  allows_exactly (ge_binary x y) on2 ev (fun w z => z = 1 \/ (z = 0 /\ bin_val w x < bin_val w y)).
Proof.
  intros F Hp x y L L0 Hc on2. assert (H2 : 2 < order) by (apply (bits_odd (prime_ge2 Hp)); lia).
  assert (G : forall less strict, allows_exactly (cmp_binary x y less strict) on2 ev (fun w z => cmp_result less strict (bin_val w x) (bin_val w y) z)).
  { intros less strict. split.
    - intros b r b' w E Hw Hs [_ HB]. apply Forall_app in HB. destruct HB as [Bx By].
      exact (proj2 (proj2 (snd_cmp_binary Hp w Hw x y less strict Bx By b r b' E Hs))).
    - intro z. apply to_sat_call. intros s G [[U HB] HZ]. apply Forall_app in HB. destruct HB as [Bx By]. apply Forall_app in U. destruct U as [Ux Uy].
      eapply csat_weaken; [eapply (fs_cmp_binary Hp H2) with (r := z); [apply uses_hasl, Ux|apply uses_hasl, Uy|apply Forall_map; exact Bx|
        apply Forall_map; exact By|exact L|exact L0|exact Hc|exact HZ]|]. cbv beta. intros e s1 _ _ [_ He]. exact He. }
  split; [|split; [|split]]; [exact (G true true)|exact (G false true)|exact (G true false)|exact (G false false)].
Qed.
Print Assumptions C64_compare_binary.

Theorem C64_assert_compare : forall (F : Field), prime order -> (4 <= max_bits)%nat -> forall x y,
  asserts_exactly (assert_lt x y) (uses [x; y]) (fun w => ev w x < ev w y) /\
  asserts_exactly (assert_gt x y) (uses [x; y]) (fun w => ev w y < ev w x) /\
  asserts_exactly (assert_le x y) (uses [x; y]) (fun _ => True) /\
  asserts_exactly (assert_ge x y) (uses [x; y]) (fun _ => True).
Proof.
  intros F Hp H4 x y. pose proof (max_bits_odd H4) as H2. split; [|split; [|split]]; apply exact_assert.
  - intros w Hw _. apply (snd_assert_lt Hp w Hw).
  - intros s G U H. eapply (fs_assert_lt Hp H2); [exact H4|has_u|has_u|exact H].
  - intros w Hw _. apply (snd_assert_gt Hp w Hw).
  - intros s G U H. via_comp. eapply (cmpl_assert_cmp Hp H2) with (less := false) (strict := true); [exact H4|has_u|has_u|].
    apply Z.ltb_lt. exact H.
  - intros w Hw _. eapply sound_weaken; [apply sound_true|]. auto.
  - intros s G U _. eapply (fs_assert_le Hp H2); [exact H4|has_u|has_u].
  - intros w Hw _. eapply sound_weaken; [apply sound_true|]. auto.
  - intros s G U _. eapply (fs_assert_ge Hp H2); [exact H4|has_u|has_u].
Qed.
Print Assumptions C64_assert_compare.

Theorem C64_assert_compare_binary : forall (F : Field), prime order -> forall x y,
  length x = length y -> (0 < length x)%nat -> (S (cmp_chunk_bits (length x)) < max_bits)%nat ->
  let on2 := fun n w => uses (x ++ y) n w /\ bits_of (x ++ y) w in
  asserts_exactly (assert_lt_binary x y) on2 (fun w => bin_val w x < bin_val w y) /\
  asserts_exactly (assert_gt_binary x y) on2 (fun w => bin_val w y < bin_val w x) /\
  asserts_exactly (assert_le_binary x y) on2 (fun _ => True) /\
  asserts_exactly (assert_ge_binary x y) on2 (fun _ => True).
Proof.
  intros F Hp x y L L0 Hc on2. assert (H2 : 2 < order) by (apply (bits_odd (prime_ge2 Hp)); lia).
  assert (G : forall less strict (P : witness -> Prop), (forall w, P w -> cmp_result less strict (bin_val w x) (bin_val w y) 1) ->
    forall s, good s -> on2 (nx s) (wt s) -> P (wt s) -> csat s (r <- cmp_binary x y less strict ;; assert_true r) (fun _ _ => True)).
  { intros less strict P HP s G [U HB] H. apply Forall_app in HB. destruct HB as [Bx By]. apply Forall_app in U. destruct U as [Ux Uy].
    eapply csat_bind; [eapply (fs_cmp_binary Hp H2) with (r := 1); [apply uses_hasl, Ux|apply uses_hasl, Uy|apply Forall_map; exact Bx|
        apply Forall_map; exact By|exact L|exact L0|exact Hc|exact (HP _ H)]|]. cbv beta. intros e s1 _ _ He.
    eapply csat_weaken; [apply (fs_assert_true Hp); exact He|]. auto. }
  split; [|split; [|split]]; apply exact_assert.
  - intros w Hw [n [_ B]]. apply Forall_app in B. eapply sound_weaken; [apply (snd_assert_lt_binary Hp w Hw); tauto|]. cbv beta. tauto.
  - apply (G true true (fun w => bin_val w x < bin_val w y)). intros w H. right. auto.
  - intros w Hw [n [_ B]]. apply Forall_app in B. eapply sound_weaken; [apply (snd_assert_gt_binary Hp w Hw); tauto|]. cbv beta. tauto.
  - apply (G false true (fun w => bin_val w y < bin_val w x)). intros w H. right. auto.
  - intros w Hw _. eapply sound_weaken; [apply sound_true|]. auto.
  - apply (G true false (fun _ => True)). intros w _. left. reflexivity.
  - intros w Hw _. eapply sound_weaken; [apply sound_true|]. auto.
  - apply (G false false (fun _ => True)). intros w _. left. reflexivity.
Qed.
Print Assumptions C64_assert_compare_binary.

(** The field of order 97 has seven bits; its alias condition 97 + x < 128 holds for x = 3 and fails for x = 50. *)
Example C64_example : let F : Field := F97 in (4 <= max_bits)%nat /\ alias_fits (input_witness [3; 50]) (e_wire 1) /\
  ~ alias_fits (input_witness [3; 50]) (e_wire 2) /\ (S (cmp_chunk_bits 4) < max_bits)%nat.
Proof. intro F. unfold alias_fits. split; [vm_compute; lia|split; [vm_compute; reflexivity|split; [intro H; vm_compute in H; discriminate|vm_compute; lia]]]. Qed.

(** ** C65: integer division gadgets *)
Theorem C65_division : forall (F : Field), prime order -> (4 <= max_bits)%nat -> forall x y,
  allows_exactly (modulus x y) (uses [x; y]) ev (fun w z => 0 <= z < ev w y) /\
  allows_exactly (divides x y) (uses [x; y]) ev (fun w z => (z = 1 /\ 1 <= ev w x) \/ (z = 0 /\ 2 <= ev w x)).
Proof.
  intros F Hp H4 x y. pose proof (max_bits_odd H4) as H2. split; split.
  - intros b r b' w E Hw Hs _. split; [apply (infield_ev Hp)|]. exact (proj1 (snd_modulus Hp w Hw x y b r b' E Hs)).
  - intro z. apply to_sat_call. intros s G [U Hz]. eapply csat_weaken; [eapply (fs_modulus Hp H2) with (r := z); [exact H4|has_u|has_u|exact Hz]|].
    cbv beta. intros e s1 _ _ [_ He]. exact He.
  - intros b r b' w E Hw Hs _.
    assert (S : sound w (divides x y) (fun r => exists m, 0 <= m < ev w x /\ ev w r = if m =? 0 then 1 else 0)).
    { unfold divides. sbind (apply (snd_modulus Hp w Hw)). intros m [Hm _]. eapply sound_weaken; [apply (snd_zero Hp w Hw)|].
      cbv beta. intros r0 Hr. exists (ev w m). split; [split; [apply (infield_ev Hp)|exact Hm]|exact Hr]. }
    destruct (S b r b' E Hs) as (m & Hm & ->). destruct (Z.eqb_spec m 0); [left|right]; lia.
  - intro z. apply to_sat_call. intros s G [U Hz].
    assert (K : forall r : bool, z = b2z r -> (if r then 1 else 2) <= ev (wt s) x -> csat s (divides x y) (fun r s' => ev (wt s') r = z)).
    { intros r -> Hr. eapply csat_weaken; [eapply (fs_divides Hp H2) with (r := r); [exact H4|has_u|has_u|exact Hr]|].
      cbv beta. intros e s1 _ _ [_ He]. exact He. }
    destruct Hz as [[-> Hz]|[-> Hz]]; [apply (K true)|apply (K false)]; auto.
Qed.
Print Assumptions C65_division.

(** 10 mod 7 can be claimed to be 5: a value below 7. *)
Example C65_example : let F : Field := F97 in exists r b' w', modulus (e_wire 1) (e_wire 2) (mkB 3 [] []) = Ok (r, b') /\
  wf_witness w' /\ w' 1%nat = 10 /\ w' 2%nat = 7 /\ sat w' b' /\ ev w' r = 5.
Proof.
  intro F. destruct (C65_division F97 prime_F97 ltac:(vm_compute; lia) (e_wire 1) (e_wire 2)) as [[_ H] _].
  destruct (H 5 (mkB 3 [] []) (input_witness [10; 7])) as (r & b' & w' & E & _ & W & X & S & R).
  - split; [cbn; lia|constructor].
  - apply (wf_input prime_F97). repeat constructor; cbn; lia.
  - constructor.
  - split; [apply (below_wires F97); vm_compute; reflexivity|vm_compute; split; [discriminate|reflexivity]].
  - exists r, b', w'. split; [exact E|]. split; [exact W|]. split; [apply (X 1%nat); cbn; lia|]. split; [apply (X 2%nat); cbn; lia|]. auto.
Qed.

(** ** C66: splitting, lookup, permutations and sorting *)
Definition bit_list {F : Field} (n : nat) (l : list Z) : Prop := length l = n /\ Forall is_bit l.

Theorem C66_splitting : forall (F : Field), prime order -> forall x,
  ((4 <= max_bits)%nat -> allows_exactly (split x) (uses [x]) (fun w r => map (ev w) r)
     (fun w l => bit_list max_bits l /\ bits_val l = ev w x)) /\
  allows_exactly (split_allowing_ambiguity x) (uses [x]) (fun w r => map (ev w) r)
     (fun w l => bit_list max_bits l /\ (bits_val l = ev w x \/ bits_val l = ev w x + order)) /\
  (forall n, (n < max_bits)%nat -> allows_exactly (split_bounded x n) (uses [x]) (fun w r => map (ev w) r)
     (fun w l => bit_list n l /\ bits_val l = ev w x)).
Proof.
  intros F Hp x. pose proof (prime_ge2 Hp) as Hord.
  assert (EV : forall s r l, hasl s r l -> map (ev (wt s)) r = l) by (intros s r l H; exact (proj1 (hasl_map_ev _ _ _ H))).
  split; [|split].
  - intro H4. pose proof (max_bits_odd H4) as H2. split.
    + intros b r b' w E Hw Hs _. destruct (snd_split Hp w Hw x b r b' E Hs) as (L & Hb & V).
      split; [split; [rewrite map_length; exact L|apply Forall_map; exact Hb]|exact V].
    + intro l. apply to_sat_call. intros s G [U [[L B] V]].
      eapply csat_weaken; [apply (fs_split Hp H2); [exact H4|has_u]|]. cbv beta. intros r s1 _ _ Hr. rewrite (EV _ _ _ Hr).
      apply bits_val_inj; [rewrite zbl_length; auto|apply zbl_bits|exact B|]. rewrite V. apply (zbl_canon Hp), (ev_infield Hord).
  - split.
    + intros b r b' w E Hw Hs _. destruct (snd_split_amb Hp w Hw x b r b' E Hs) as (L & Hb & V).
      split; [split; [rewrite map_length; exact L|apply Forall_map; exact Hb]|exact V].
    + intro l. apply to_sat_call. intros s G [U [[L B] V]]. pose proof (infield_ev Hp (wt s) x) as Ix.
      eapply csat_weaken; [eapply (fs_split_amb Hp) with (l := l); [has_u|exact B| |exact L]|].
      * destruct V as [-> | ->]; [apply Z.mod_small; lia|]. replace (ev (wt s) x + order) with (ev (wt s) x + 1 * order) by ring.
        rewrite Z.mod_add by lia. apply Z.mod_small; lia.
      * cbv beta. intros r s1 _ _ Hr. exact (EV _ _ _ Hr).
  - intros n Hn. split.
    + intros b r b' w E Hw Hs _. destruct (snd_split_bounded Hp w Hw x n b r b' E Hs) as (_ & L & Hb & V).
      split; [split; [rewrite map_length; exact L|apply Forall_map; exact Hb]|symmetry; exact V].
    + intro l. apply to_sat_call. intros s G [U [[L B] V]]. pose proof (infield_ev Hp (wt s) x) as Ix. unfold split_bounded.
      eapply csat_liftb; [rewrite (proj2 (Nat.ltb_lt _ _) Hn); reflexivity|]. rewrite <- L.
      eapply csat_weaken; [eapply (fs_swrc Hp) with (l := l); [has_u|exact B|rewrite V; apply Z.mod_small; lia|lia]|].
      cbv beta. intros r s1 _ _ Hr. exact (EV _ _ _ Hr).
Qed.
Print Assumptions C66_splitting.

Theorem C66_random_access : forall (F : Field), prime order -> forall items i,
  (0 < length items)%nat -> (index_bits (length items) < max_bits)%nat ->
  allows_exactly (random_access items i) (uses (i :: items)) ev (fun w z =>
    ev w i < 2 ^ Z.of_nat (index_bits (length items)) /\
    z = nth (tree_pos (index_bits (length items)) (length items) (Z.to_nat (ev w i))) (map (ev w) items) 0).
Proof.
  intros F Hp items i L0 Hc. pose proof (prime_ge2 Hp) as Hord. split.
  - intros b r b' w E Hw Hs _. destruct (snd_random_access Hp w Hw items i b r b' E Hs) as (_ & Hi & Hr). split; [exact Hi|].
    rewrite Hr. rewrite <- (map_nth (ev w)), (ev_zero Hord). reflexivity.
  - intro z. apply to_sat_call. intros s G [U [Hi ->]].
    inversion U as [|? ? Bi Bs]; subst. eapply csat_weaken; [via_comp; eapply (cmpl_random_access Hp) with (a := ev (wt s) i);
      [apply uses_hasl, Bs|has_u|lia|exact Hc|exact Hi]|]. cbv beta. intros r s1 _ _ [_ Hr]. exact Hr.
Qed.
Print Assumptions C66_random_access.

Theorem C66_permutation : forall (F : Field), prime order -> forall xs ys,
  asserts_exactly (assert_permutation xs ys) (uses (xs ++ ys)) (fun w => Permutation (map (ev w) xs) (map (ev w) ys)).
Proof.
  intros F Hp xs ys. apply exact_assert.
  - intros w Hw _. eapply sound_weaken; [apply (snd_assert_permutation Hp w Hw)|]. cbv beta. tauto.
  - intros s G U HP. apply Forall_app in U. destruct U as [Ux Uy]. via_comp.
    eapply (cmpl_assert_permutation Hp); [apply uses_hasl, Ux|apply uses_hasl, Uy|exact HP].
Qed.
Print Assumptions C66_permutation.

(** Sorting gadgets accept every rearrangement of their inputs and nothing else. *)
Theorem C66_sorting : forall (F : Field), prime order -> (4 <= max_bits)%nat -> forall l, l <> [] ->
  allows_exactly (sort_ascending l) (uses l) (fun w r => map (ev w) r) (fun w out => Permutation (map (ev w) l) out) /\
  allows_exactly (sort_descending l) (uses l) (fun w r => map (ev w) r) (fun w out => Permutation (map (ev w) l) out).
Proof.
  intros F Hp H4 l Hne. pose proof (max_bits_odd H4) as H2. split; split.
  - intros b r b' w E Hw Hs _. exact (proj2 (snd_sort_ascending Hp w Hw l b r b' E Hs)).
  - intro out. apply to_sat_call. intros s G [U HP]. eapply csat_weaken; [eapply (fs_sort_ascending Hp H2); [exact H4|exact Hne|apply uses_hasl, U|exact HP]|].
    cbv beta. intros r s1 _ _ Hr. exact (proj1 (hasl_map_ev _ _ _ Hr)).
  - intros b r b' w E Hw Hs _. exact (proj2 (snd_sort_descending Hp w Hw l b r b' E Hs)).
  - intro out. apply to_sat_call. intros s G [U HP]. eapply csat_weaken; [eapply (fs_sort_descending Hp H2); [exact H4|exact Hne|apply uses_hasl, U|exact HP]|].
    cbv beta. intros r s1 _ _ Hr. exact (proj1 (hasl_map_ev _ _ _ Hr)).
Qed.
Print Assumptions C66_sorting.

(** Both readings of 3 in seven bits exist (3 and 100); index 3 of three items reaches the last one. *)
Example C66_example : let F : Field := F97 in
  bit_list 7 [1; 1; 0; 0; 0; 0; 0] /\ bits_val [1; 1; 0; 0; 0; 0; 0] = 3 /\ bits_val [0; 0; 1; 0; 0; 1; 1] = 3 + 97 /\
  index_bits 3 = 2%nat /\ tree_pos 2 3 3 = 2%nat /\ Permutation [3; 1; 2] [1; 2; 3].
Proof.
  intro F. repeat split; try (vm_compute; reflexivity); [repeat constructor; (left + right); reflexivity|].
  change [3; 1; 2] with ([3] ++ [1; 2]). apply (Permutation_app_comm [3] [1; 2]).
Qed.

(** ** C67: curve gadgets *)
(** Sums, doubles and scalar multiples are unconstrained: every pair of field elements is accepted. A new point
    expression is constrained to the curve, and so is nothing else. *)
Theorem C67_curve : forall (F : Field), prime order -> 2 < order -> forall C l r e,
  allows_exactly (ed_add_expressions C l r) (fun n _ => below_p n l /\ below_p n r) evp (fun _ R => in_plane R) /\
  allows_exactly (ed_double_expression C l) (fun n _ => below_p n l) evp (fun _ R => in_plane R) /\
  allows_exactly (mul_scalar_expression (edwards_group C) l e) (fun n _ => below_p n l /\ below n e) evp (fun _ R => in_plane R) /\
  asserts_exactly (ed_expr_new C (fst l) (snd l)) (fun n _ => below_p n l) (fun w => on_curve (ed_a C) (ed_d C) (evp w l)).
Proof.
  intros F Hp H2 C l r e.
  assert (IP : forall w p, in_plane (evp w p)) by (intros w p; split; apply (infield_ev Hp)).
  split; [|split; [|split]]; try (split; [intros; apply IP|]).
  - intros R b w W Hw S [HP HR]. exact (proj1 (C51_sum_unconstrained_refuted F Hp H2 C l r R HR) b w W Hw S HP).
  - intros R b w W Hw S [HP HR]. exact (proj2 (C51_sum_unconstrained_refuted F Hp H2 C l r R HR) b w W Hw S HP).
  - intros R b w W Hw S [HP HR]. exact (C53_product_unconstrained_refuted F Hp H2 C l e R HR b w W Hw S HP).
  - split.
    + intros b x b' w E Hw Hs _. exact (proj2 (C52_expression_sound F Hp C (fst l) (snd l) b x b' w E Hw Hs)).
    + intros b w W Hw S [[B1 B2] HC].
      destruct (C52_expression_satisfiable F Hp C (fst l) (snd l) b w W Hw S (conj B1 (conj B2 HC))) as (x & b' & w' & X1 & X2 & X3 & X4 & X5 & X6).
      exists x, b', w'. tauto.
Qed.
Print Assumptions C67_curve.

(** A signature (s, e) of a message is accepted exactly when e is the hash of the message with some field element: the
    public key, the generator and s do not matter. *)
Theorem C67_schnorr : forall (F : Field), prime order -> 2 < order -> forall C g m H,
  in_plane g -> computes2 m H -> completes2 m H -> (forall x y, local (m x y)) -> forall s e msg pk,
  asserts_exactly (schnorr_verify (mkCyclic (edwards_group C) (Ok g)) (s, e) msg pk m)
    (fun n _ => below n s /\ below n e /\ below n msg /\ below_p n pk)
    (fun w => exists c, 0 <= c < order /\ ev w e = H c (ev w msg)).
Proof.
  intros F Hp H2 C g m H Og Hm Hc Hl s e msg pk. split.
  - intros b x b' w E Hw Hs _. exact (C54_accepted_only_if F Hp C g m H Hm s e msg pk b x b' w E Hw Hs).
  - intros b w W Hw S [(B1 & B2 & B3 & B4) (c & Hc' & E)].
    exact (C54_forgery_refuted F Hp H2 C g m H Og Hc Hl s e msg pk c Hc' b w W Hw S (conj B1 (conj B2 (conj B3 (conj B4 E))))).
Qed.
Print Assumptions C67_schnorr.

(** The MiMC based hash over F_11 used above: the message 6 has accepted signatures for the hash values it can take. *)
Example C67_example : let F : Field := F11 in computes2 demo_hash demo_H /\ completes2 demo_hash demo_H /\ (forall x y, local (demo_hash x y)) /\
  in_plane (4, 3) /\ exists c, 0 <= c < order /\ 6 = demo_H c 6.
Proof.
  intro F. destruct demo_hash_facts as (A & B & D). repeat (split; [assumption|]). split; [split; cbn; lia|].
  exists 0. split; [cbn; lia|vm_compute; reflexivity].
Qed.
