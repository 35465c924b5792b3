(** C103: a gadget does not depend on the wires it is placed on. *)
From Coq Require Import ZArith List Bool Arith Lia Sorted Permutation.
From Verif Require Import Base FieldM FieldP ExprM BuilderM GadgetsM WaksmanM CryptoM CurveM Spec ExprP CoreP ProgramM LibraryM SpecRename RenameP RenameCallsP Demo.
Import ListNotations.
Open Scope Z_scope.

(** ** What follows from it *)
Lemma ev_same W (HW : one_to_one W) (F : Field) w w' x x' : (forall k k', W k k' -> w k = w' k') -> same_expr W x x' -> ev w' x' = ev w x.
Proof.
  intros H E. destruct (sm_entries W HW _ _ E) as (y & P & EY). unfold ev. f_equal.
  assert (L : lin w' x' = lin w' y) by (clear -P; unfold lin; induction P; simpl; try lia). rewrite L.
  clear -EY H. induction EY as [|[a c] [a' c'] l l' [H1 H2] Q IH]; [reflexivity|]. simpl in *. subst c'. unfold lin in *. simpl. rewrite IH, (H a a' H1). reflexivity.
Qed.

(** Corresponding assignments satisfy corresponding constraints or violate them together. *)
Theorem C103_satisfied : forall (F : Field) W, one_to_one W -> forall w w', (forall k k', W k k' -> w k = w' k') ->
  forall cs cs', Forall2 (same_constraint W) cs cs' -> (Forall (sat1 w) cs <-> Forall (sat1 w') cs').
Proof.
  intros F W HW w w' H cs cs' HC. induction HC as [|c c' cs cs' (Ha & Hb & Hc) HC IH]; [split; constructor|].
  assert (E : sat1 w c <-> sat1 w' c') by (unfold sat1; rewrite (ev_same W HW F w w' _ _ H Ha), (ev_same W HW F w w' _ _ H Hb), (ev_same W HW F w w' _ _ H Hc); reflexivity).
  split; intro Q; inversion Q; subst; constructor; tauto.
Qed.
Print Assumptions C103_satisfied.

Section Execute.
Context {F : Field} (Hord : 2 <= order).
Variable W : nat -> nat -> Prop.
Hypothesis HW : one_to_one W.
Local Notation vr := (same_values W).

Lemma so_pass gs gs' : Forall2 (same_generator W) gs gs' -> forall v v', vr v v' ->
  same_outcome (pair_rel (pair_rel (Forall2 (same_generator W)) vr) eq) (exec_pass gs v) (exec_pass gs' v').
Proof.
  induction 1 as [|g g' gs gs' [Gd Gr] HG IH]; intros v v' Hv; simpl; [split; [split; [constructor|exact Hv]|reflexivity]|].
  rewrite (vr_contains_all W v v' _ _ Hv Gd). destruct (v_contains_all v (g_inputs g)).
  - eapply so_bind; [apply Gr, Hv|]. intros u u' Hu. eapply so_bind; [apply IH, Hu|]. intros [[k1 v1] p1] [[k2 v2] p2] [[? ?] ?]. simpl in *. split; [split; assumption|reflexivity].
  - eapply so_bind; [apply IH, Hv|]. intros [[k1 v1] p1] [[k2 v2] p2] [[? ?] ?]. simpl in *. split; [split; [constructor; [split; assumption|assumption]|assumption]|assumption].
Qed.
Lemma so_loop : forall f gs gs' v v', Forall2 (same_generator W) gs gs' -> vr v v' ->
  same_outcome (pair_rel (Forall2 (same_generator W)) vr) (exec_loop f gs v) (exec_loop f gs' v').
Proof.
  induction f as [|f IH]; intros gs gs' v v' HG Hv; simpl; auto. eapply so_bind; [apply so_pass; eassumption|].
  intros [[k1 v1] p1] [[k2 v2] p2] [[? ?] E]. simpl in *. subst p2. destruct p1; [apply IH; assumption|]. simpl. split; assumption.
Qed.
Lemma so_oall v v' cs cs' : vr v v' -> Forall2 (same_constraint W) cs cs' -> same_outcome eq (oall (c_evaluate v) cs) (oall (c_evaluate v') cs').
Proof using HW Hord.
  intros Hv HC. induction HC as [|c c' cs cs' (Ha & Hb & Hc) HC IH]; simpl; [reflexivity|].
  unfold c_evaluate at 1 3. rewrite (vr_evaluate Hord W HW v v' _ _ Hv Ha), (vr_evaluate Hord W HW v v' _ _ Hv Hb), (vr_evaluate Hord W HW v v' _ _ Hv Hc).
  eapply so_bind; [apply so_eq|]. intros ok ? <-. destruct ok; [exact IH|reflexivity].
Qed.
End Execute.

(** Executed from corresponding values, corresponding gadgets have the same outcome: the same verdict and corresponding values, or both panic. *)
Theorem C103_execute : forall (F : Field), 2 <= order -> forall W, one_to_one W -> forall g g',
  Forall2 (same_constraint W) (gd_constraints g) (gd_constraints g') -> Forall2 (same_generator W) (gd_generators g) (gd_generators g') ->
  forall v v', same_values W v v' ->
  same_outcome (fun r r' => fst r = fst r' /\ same_values W (snd r) (snd r')) (execute g v) (execute g' v').
Proof.
  intros F Hord W HW g g' HC HG v v' Hv. unfold execute. rewrite (Forall2_len _ _ _ HG). eapply so_bind; [apply (so_loop W); eassumption|].
  intros [k1 v1] [k2 v2] [Hk H1]. cbn [fst snd] in *. rewrite (Forall2_len _ _ _ Hk). eapply so_bind; [apply so_eq|]. intros _ _ _.
  eapply so_bind; [apply (so_oall Hord W HW); eassumption|]. intros ok ? <-. simpl. auto.
Qed.
Print Assumptions C103_execute.

(** ** A gadget on two places *)
(** The correspondence of two places: input wires with input wires, and the wires the builders hand out from there on. *)
Definition placed (b b' : builder) (ws ws' : list nat) (k k' : nat) : Prop :=
  (k = ONE /\ k' = ONE) \/ (exists i, nth_error ws i = Some k /\ nth_error ws' i = Some k') \/ (exists i, k = (next b + i)%nat /\ k' = (next b' + i)%nat).
(** Distinct wires that have been handed out already. *)
Definition inputs_of (b : builder) (ws : list nat) : Prop := NoDup ws /\ Forall (fun w => 0 < w < next b)%nat ws.

Lemma placed_one_to_one b b' ws ws' : (0 < next b)%nat -> (0 < next b')%nat -> inputs_of b ws -> inputs_of b' ws' -> one_to_one (placed b b' ws ws').
Proof.
  intros N N' [D I] [D' I']. rewrite Forall_forall in I, I'. split; [left; auto|].
  assert (R : forall i k, nth_error ws i = Some k -> (0 < k < next b)%nat) by (intros i k E; apply I, (nth_error_In _ _ E)).
  assert (R' : forall i k, nth_error ws' i = Some k -> (0 < k < next b')%nat) by (intros i k E; apply I', (nth_error_In _ _ E)).
  intros a a' c c' [[-> ->]|[(i & E & E')|(i & -> & ->)]] [[-> ->]|[(j & G & G')|(j & -> & ->)]]; unfold ONE in *;
    try (pose proof (R _ _ E)); try (pose proof (R _ _ G)); try (pose proof (R' _ _ E')); try (pose proof (R' _ _ G')); try lia.
  split; intro Q; subst.
  - assert (i = j) by (apply (proj1 (NoDup_nth_error ws) D); [apply nth_error_Some; congruence|congruence]). subst. congruence.
  - assert (i = j) by (apply (proj1 (NoDup_nth_error ws') D'); [apply nth_error_Some; congruence|congruence]). subst. congruence.
Qed.

(** Called on any two builders, with distinct input wires: both calls panic, or both succeed and add as many wires, constraints and generators; then
    for corresponding values the execution of what was added gives the same verdict and the same results, and corresponding assignments satisfy
    the new constraints or not together. *)
Theorem C103_anywhere : forall (F : Field), 2 <= order -> forall m, placeable m -> forall b b' ws ws',
  (0 < next b)%nat -> (0 < next b')%nat -> inputs_of b ws -> inputs_of b' ws' -> length ws = length ws' ->
  same_outcome (fun r r' => exists n cs cs' gs gs',
      snd r = mkB (next b + n) (constraints b ++ cs) (generators b ++ gs) /\ snd r' = mkB (next b' + n) (constraints b' ++ cs') (generators b' ++ gs') /\
      length cs = length cs' /\ length gs = length gs' /\ length (fst r) = length (fst r') /\
      (forall v v', same_values (placed b b' ws ws') v v' ->
       same_outcome (fun x x' => fst x = fst x' /\ omap (e_evaluate (snd x)) (fst r) = omap (e_evaluate (snd x')) (fst r'))
         (execute (mkGadget cs gs) v) (execute (mkGadget cs' gs') v')) /\
      (forall w w', (forall k k', placed b b' ws ws' k k' -> w k = w' k') ->
       (Forall (sat1 w) cs <-> Forall (sat1 w') cs') /\ map (ev w) (fst r) = map (ev w') (fst r')))
    (m (map e_wire ws) b) (m (map e_wire ws') b').
Proof.
  intros F Hord m P b b' ws ws' N N' I I' L. pose proof (placed_one_to_one b b' ws ws' N N' I I') as HW. set (W := placed b b' ws ws') in *.
  assert (S : same_fresh W b b') by (intro i; right; right; eauto).
  assert (A : Forall2 (same_expr W) (map e_wire ws) (map e_wire ws')).
  { apply (F2_map W); [intros; apply er_wire; assumption|]. assert (Q : forall k k', (exists i, nth_error ws i = Some k /\ nth_error ws' i = Some k') -> W k k') by (intros; right; left; assumption).
    clearbody W. clear -L Q. revert ws' L Q. induction ws as [|a l IH]; intros [|a' l'] L Q; try discriminate; constructor; [apply Q; exists 0%nat; auto|].
    apply IH; [simpl in L; congruence|]. intros k k' (i & E & E'). apply Q. exists (Datatypes.S i). auto. }
  specialize (P W HW _ _ A b b' S). eapply so_imp; [|exact P]. intros [r b1] [r' b1'] (Hr & n & cs & cs' & gs & gs' & E & E' & HC & HG). cbn [fst snd] in *.
  exists n, cs, cs', gs, gs'. split; [exact E|]. split; [exact E'|]. rewrite (Forall2_len _ _ _ HC), (Forall2_len _ _ _ HG), (Forall2_len _ _ _ Hr). do 3 (split; [reflexivity|]). split.
  - intros v v' Hv. eapply so_imp; [|apply (C103_execute F Hord W HW (mkGadget cs gs) (mkGadget cs' gs') HC HG v v' Hv)].
    intros [o u] [o' u'] [Eo Hu]. cbn [fst snd] in *. split; [exact Eo|]. clear -Hr Hu HW Hord. induction Hr as [|x x' l l' Hx HL IH]; simpl; [reflexivity|]. rewrite (vr_evaluate Hord W HW u u' x x' Hu Hx), IH. reflexivity.
  - intros w w' Hw. split; [apply (C103_satisfied F W HW w w' Hw); exact HC|]. clear -Hr Hw HW. induction Hr as [|x x' l l' Hx HL IH]; simpl; [reflexivity|]. rewrite (ev_same W HW F w w' x x' Hw Hx), IH. reflexivity.
Qed.
Print Assumptions C103_anywhere.

(** ** All gadgets *)
Lemma F2_cut {A A'} (R : A -> A' -> Prop) ns : forall l l', Forall2 R l l' -> Forall2 (Forall2 R) (cut ns l) (cut ns l').
Proof. induction ns as [|n ns IH]; intros l l' H; simpl; constructor; [apply F2_firstn, H|apply IH, F2_skipn, H]. Qed.
Lemma F2_pick {A A'} (R : A -> A' -> Prop) l l' is : Forall2 R l l' ->
  match pick l is, pick l' is with Some a, Some a' => Forall2 R a a' | None, None => True | _, _ => False end.
Proof.
  intro H. induction is as [|i is IH]; simpl; [constructor|]. pose proof (F2_nth R l l' i H). destruct (nth_error l i), (nth_error l' i); try tauto.
  destruct (pick l is), (pick l' is); try tauto. constructor; assumption.
Qed.
Section Lists.
Variable W : nat -> nat -> Prop.
Local Notation er := (same_expr W).
Local Notation sc := (same_call W).
Lemma sc_out1 m m' : sc er m m' -> sc (Forall2 er) (out1 m) (out1 m').
Proof. intro H. eapply sc_bind; [exact H|]. intros. apply sc_ret. constructor; auto. Qed.
Lemma sc_out0 {A A'} (R : A -> A' -> Prop) m m' : sc R m m' -> sc (Forall2 er) (out0 m) (out0 m').
Proof. intro H. eapply sc_bind; [exact H|]. intros. apply sc_ret. constructor. Qed.
Lemma sc_call1 es es' i k k' : Forall2 er es es' -> (forall x x', er x x' -> sc (Forall2 er) (k x) (k' x')) -> sc (Forall2 er) (call1 es i k) (call1 es' i k').
Proof. intros H K. eapply sc_bind; [apply sc_lift, so_oindex, H|]. exact K. Qed.
Lemma sc_call2 es es' i j k k' : Forall2 er es es' -> (forall x x' y y', er x x' -> er y y' -> sc (Forall2 er) (k x y) (k' x' y')) ->
  sc (Forall2 er) (call2 es i j k) (call2 es' i j k').
Proof. intros H K. eapply sc_bind; [apply sc_lift, so_oindex, H|]. intros. eapply sc_bind; [apply sc_lift, so_oindex, H|]. intros. apply K; assumption. Qed.
Lemma sc_ret1 x x' : er x x' -> sc (Forall2 er) (bret [x]) (bret [x']).
Proof. intro. apply sc_ret. constructor; auto. Qed.
End Lists.

(** A list argument of a fixed length. *)
Ltac args H := repeat match type of H with
  | Forall2 _ ?l _ => is_var l; destruct H as [|? ? ? ? ? H]; try exact (sc_lift _ _ Panic Panic I)
  end.

(** The operations of straight-line programs (field and boolean operations, comparisons, assertions), and whole programs. *)
Theorem C103_operations : forall (F : Field), 2 <= order -> (forall o, placeable (fun es => cop es o)) /\ forall p, placeable (compile p).
Proof.
  intros F Hord. assert (O : forall o, placeable (fun es => cop es o)).
  { intros o W HW es es' H. destruct o; simpl;
      try (apply sc_call2; [exact H|intros]); try (apply sc_call1; [exact H|intros]); try (apply sc_out1); try (eapply sc_out0); try (apply sc_ret1).
    - apply sc_lift, so_from_uint, HW. - apply er_add; assumption. - apply er_sub; assumption. - apply er_neg; assumption. - apply er_scale; assumption.
    - apply sc_product; assumption. - apply sc_quotient; assumption. - apply sc_inverse; assumption. - apply sc_exponentiation; assumption.
    - apply sc_nonzero; assumption. - apply sc_g_zero; assumption. - apply sc_g_equal; assumption. - apply sc_b_not; assumption.
    - apply sc_b_and; assumption. - apply sc_b_or; assumption. - apply sc_b_xor; assumption.
    - apply sc_selection; assumption.
    - eapply sc_bind; [apply sc_split; eassumption|]. intros. apply sc_out1, sc_lift, so_oindex. assumption.
    - apply sc_assert_zero; assumption. - apply sc_assert_equal; assumption. - apply sc_assert_nonzero; assumption. - apply sc_assert_nonequal; assumption.
    - apply sc_assert_boolean; assumption. - apply sc_assert_true; assumption. - apply sc_assert_false; assumption. - apply sc_assert_lt; assumption. - apply sc_assert_gt; assumption. }
  split; [exact O|]. intros p W HW. induction p as [|o p IH]; intros es es' H; simpl; [apply sc_ret, H|].
  eapply sc_bind; [apply (O o W HW _ _ H)|]. intros. apply IH, Forall2_app; assumption.
Qed.
Print Assumptions C103_operations.

(** Words: splitting, joining, sums, bitwise operations, comparisons. *)
Theorem C103_words : forall (F : Field), 2 <= order ->
  placeable (c_call c_bit) /\ placeable (c_call c_split) /\ (forall n, placeable (c_call (c_split_bounded n))) /\ placeable (fun es => match es with [x] => split_allowing_ambiguity x | _ => blift Panic end) /\
  (forall n, placeable (c_call (c_join n))) /\
  (forall ns, placeable (c_call (c_sum ns)) /\ placeable (c_call (c_sum_wrapping ns)) /\ placeable (c_call (c_sum_checked ns))) /\ placeable (fun es => out0 (binary_assert_zero es)) /\
  (forall n, placeable (c_call (c_wnot n))) /\
  (forall n op zop, op = bitwise_and \/ op = bitwise_or \/ op = bitwise_xor -> placeable (c_call (c_bitwise n op zop))) /\
  (forall n, placeable (fun es => rotate_inc es n) /\ placeable (fun es => rotate_dec es n) /\ placeable (fun es => shift_inc es n) /\ placeable (fun es => shift_dec es n)) /\
  (forall n less strict, placeable (fun es => out1 (cmp_binary (firstn n es) (skipn n es) less strict))) /\
  (forall less strict, placeable (fun es => match es with [x; y] => out1 (cmp x y less strict) | _ => blift Panic end)) /\
  placeable (fun es => match es with [x; y] => out1 (modulus x y) | _ => blift Panic end) /\ placeable (fun es => match es with [x; y] => out1 (divides x y) | _ => blift Panic end).
Proof.
  intros F Hord. repeat match goal with |- _ /\ _ => split end; intros; repeat match goal with |- _ /\ _ => split end; try (intros W HW es es' E; cbn [c_call c_bit c_split c_split_bounded c_join c_sum c_sum_wrapping c_sum_checked c_wnot]).
  - args E. eapply sc_bind; [apply sc_assert_boolean; assumption|]. intros. apply sc_ret1. assumption.
  - args E. apply sc_split; assumption.
  - args E. apply sc_split_bounded; assumption.
  - args E. apply sc_split_allowing_ambiguity; assumption.
  - apply sc_out1, sc_lift, so_join; assumption.
  - apply sc_binary_summation; [assumption..|]. apply F2_cut, E.
  - apply sc_binary_summation_ignoring_overflow; [assumption..|]. apply F2_cut, E.
  - apply sc_binary_summation_asserting_no_overflow; [assumption..|]. apply F2_cut, E.
  - eapply sc_out0, sc_binary_assert_zero; assumption.
  - apply sc_bitwise_not; assumption.
  - match goal with H0 : _ \/ _ |- _ => destruct H0 as [->|[->| ->]] end; cbn [c_call c_bitwise]; (apply sc_bitwise2; [|apply F2_firstn; exact E|apply F2_skipn; exact E]; intros); [apply sc_b_and|apply sc_b_or|apply sc_b_xor]; assumption.
  - apply sc_rotate_inc; assumption. - apply sc_rotate_dec; assumption. - apply sc_shift_inc; assumption. - apply sc_shift_dec; assumption.
  - apply sc_out1, sc_cmp_binary; [assumption..|apply F2_firstn; exact E|apply F2_skipn; exact E].
  - args E. apply sc_out1, sc_cmp; assumption.
  - args E. apply sc_out1, sc_modulus; assumption.
  - args E. apply sc_out1, sc_divides; assumption.
Qed.
Print Assumptions C103_words.

(** Random access, permutation networks, sorting. *)
Theorem C103_networks : forall (F : Field), 2 <= order ->
  (forall n, placeable (c_call (c_access n))) /\ (forall n, placeable (c_call (c_permutation n))) /\ placeable sort_ascending /\ placeable sort_descending.
Proof.
  intros F Hord. repeat split; intros; intros W HW es es' H; cbn [c_call c_access c_permutation].
  - destruct H; [exact (sc_lift _ _ Panic Panic I)|]. apply sc_out1, sc_random_access; assumption.
  - eapply sc_out0, sc_assert_permutation; [assumption..|apply F2_firstn; exact H|apply F2_skipn; exact H].
  - apply sc_sort_ascending; assumption.
  - apply sc_sort_descending; assumption.
Qed.
Print Assumptions C103_networks.

(** Ciphers, compression functions, hashes, Merkle trees, sponges. *)
Theorem C103_crypto : forall (F : Field), 2 <= order ->
  (forall cs n, placeable_cipher (mkBC (mimc_encrypt cs (monomial n)) (mimc_decrypt cs (monomial n)))) /\
  (forall c, placeable_cipher c -> placeable_compression (davies_meyer c) /\ placeable_compression (miyaguchi_preneel c)) /\
  (forall m, placeable_compression m ->
     (forall H, placeable (c_call (c_compress m H))) /\ (forall H iv n, placeable (c_call (c_hash m H iv n))) /\
     (forall H n, placeable (c_call (c_root m H n))) /\ (forall H n, placeable (c_call (c_member m H n)))) /\
  (forall p, placeable (poseidon_permute p)) /\ (forall r, placeable (rescue_permute r)) /\
  (forall s, placeable (mp_permute (sp_perm s)) -> forall f n outputs, placeable (c_call (c_sponge s f n outputs))).
Proof.
  intros F Hord. repeat match goal with |- _ /\ _ => split end.
  - intros cs n W HW x x' y y' Hx Hy. pose proof (plp_monomial Hord W HW n). split; [apply sc_mimc_encrypt|apply sc_mimc_decrypt]; assumption.
  - intros c P. split; intros W HW; [apply sc_davies_meyer|apply sc_miyaguchi_preneel]; intros x x' y y' Hx Hy; apply (P W HW); assumption.
  - intros m P. repeat split; intros; intros W HW es es' E; pose proof (P W HW) as PW; cbn [c_call c_compress c_hash c_root c_member].
    + args E. apply sc_out1, PW; assumption.
    + apply sc_out1, sc_merkle_damgard; assumption.
    + destruct E as [|? ? ? ? ? E]; [exact (sc_lift _ _ Panic Panic I)|]. eapply sc_bind; [apply sc_lift, (so_merkle_path_new W); [apply F2_firstn, E|apply F2_skipn, E]|].
      intros. apply sc_out1, sc_merkle_tree_root; assumption.
    + destruct E as [|? ? ? ? ? E]; [exact (sc_lift _ _ Panic Panic I)|]. destruct E as [|? ? ? ? ? E]; [exact (sc_lift _ _ Panic Panic I)|].
      eapply sc_bind; [apply sc_lift, (so_merkle_path_new W); [apply F2_firstn, E|apply F2_skipn, E]|]. intros. eapply sc_out0, sc_merkle_tree_membership; assumption.
  - intros p W HW es es' E. apply sc_poseidon_permute; assumption.
  - intros p W HW es es' E. apply sc_rescue_permute; assumption.
  - intros s P f n o W HW es es' E. apply sc_sponge_evaluate; [|exact E]. intros l l' Hl. apply (P W HW), Hl.
Qed.
Print Assumptions C103_crypto.

(** Twisted Edwards curves and Schnorr signatures: coordinates as lists. *)
Theorem C103_curve : forall (F : Field), 2 <= order -> forall C,
  let coordinates (m : B ed_expr) : B (list expr) := r <- m ;; bret [fst r; snd r] in
  placeable (c_call (c_point C)) /\
  placeable (fun es => match es with [x1; y1; x2; y2] => coordinates (ed_add_expressions C (x1, y1) (x2, y2)) | _ => blift Panic end) /\
  placeable (fun es => match es with [x; y] => coordinates (ed_double_expression C (x, y)) | _ => blift Panic end) /\
  placeable (fun es => match es with [x; y; s] => coordinates (mul_scalar_expression (edwards_group C) (x, y) s) | _ => blift Panic end) /\
  forall g h, placeable_compression h ->
  placeable (fun es => match es with [s; e; m; x; y] => out0 (schnorr_verify (mkCyclic (edwards_group C) g) (s, e) m (x, y) h) | _ => blift Panic end).
Proof.
  intros F Hord C coordinates.
  assert (K : forall W m m', same_call W (pair_rel (same_expr W) (same_expr W)) m m' -> same_call W (Forall2 (same_expr W)) (coordinates m) (coordinates m')).
  { intros W m m' H. eapply sc_bind; [exact H|]. intros ? ? []. apply sc_ret. auto. }
  repeat match goal with |- _ /\ _ => split end; intros; intros W HW es es' E; pose proof (plg_edwards Hord W HW C) as G; cbn [c_call c_point]; args E.
  - eapply sc_out0, sc_ed_expr_new; assumption.
  - apply K. apply (plg_add W _ _ G (_, _) (_, _) (_, _) (_, _)); split; assumption.
  - apply K. apply (plg_double W _ _ G (_, _) (_, _)); split; assumption.
  - apply K. apply (sc_mul_scalar Hord W HW (edwards_group C) _ (_, _) (_, _) _ _ G); [split; assumption|assumption].
  - eapply sc_out0. eapply (sc_schnorr Hord W HW (mkCyclic (edwards_group C) g) _ (_, _) (_, _)); [exact G|intros ? ? ? ? ? ?; apply (H W HW); assumption|split; assumption|assumption|split; assumption].
Qed.
Print Assumptions C103_curve.

(** Circuits put together from such components. *)
Theorem C103_circuit : forall p, Forall (fun ci => placeable (c_call (fst ci))) p -> placeable (construct p).
Proof.
  intros p H W HW. induction H as [|[c is] p Hc HP IH]; intros es es' E; simpl; [apply sc_ret, E|].
  apply sc_bind with (R := Forall2 (same_expr W)); [apply sc_lift, so_ounwrap, (F2_pick (same_expr W)), E|]. intros a a' Ha. eapply sc_bind; [apply (Hc W HW), Ha|]. intros r r' Hr. apply IH, Forall2_app; assumption.
Qed.
Print Assumptions C103_circuit.

(** The bits of a product of two wires of F13 and a division, first on a fresh builder, then on one with 40 wires, some of them used, with the
    inputs on wires 31 and 7. *)
Definition C103_gadget {F : Field} (es : list expr) : B (list expr) :=
  match es with
  | [x; y] => p <- product x y ;; bits <- split_bounded p 3 ;; q <- quotient x (e_add y e_one) ;; bret (q :: bits)
  | _ => blift Panic
  end.
Example C103_example : let F : Field := F13 in
  let b := mkB 3 [] [] in let b' := mkB 41 [mkC (e_wire 31) (e_wire 7) (e_wire 9)] [] in
  inputs_of b [1; 2]%nat /\ inputs_of b' [31; 7]%nat /\ placed b b' [1; 2]%nat [31; 7]%nat 2 7 /\ placed b b' [1; 2]%nat [31; 7]%nat 5 43 /\
  same_values (placed b b' [1; 2]%nat [31; 7]%nat) (m_collect [(0%nat, 1); (1%nat, 3); (2%nat, 2)]) (m_collect [(0%nat, 1); (31%nat, 3); (7%nat, 2); (8%nat, 12)]) /\
  match C103_gadget (map e_wire [1; 2]%nat) b, C103_gadget (map e_wire [31; 7]%nat) b' with
  | Ok (r, b1), Ok (r', b1') =>
    next b1 = 9%nat /\ next b1' = 47%nat /\ length (constraints b1) = 7%nat /\
    match execute (mkGadget (constraints b1) (generators b1)) (m_collect [(0%nat, 1); (1%nat, 3); (2%nat, 2)]),
          execute (mkGadget (skipn 1 (constraints b1')) (generators b1')) (m_collect [(0%nat, 1); (31%nat, 3); (7%nat, 2); (8%nat, 12)]) with
    | Ok (true, v), Ok (true, v') => omap (e_evaluate v) r = Ok [1; 0; 1; 1] /\ omap (e_evaluate v') r' = Ok [1; 0; 1; 1]
    | _, _ => False
    end
  | _, _ => False
  end.
Proof.
  cbv zeta. assert (I1 : inputs_of (mkB 3 [] []) [1; 2]%nat) by (split; [repeat constructor; simpl; intuition lia|repeat constructor]).
  assert (I2 : inputs_of (mkB 41 [mkC (e_wire 31) (e_wire 7) (e_wire 9)] []) [31; 7]%nat) by (split; [repeat constructor; simpl; intuition lia|repeat constructor; simpl; lia]).
  split; [exact I1|]. split; [exact I2|]. split; [right; left; exists 1%nat; split; reflexivity|]. split; [right; right; exists 2%nat; split; reflexivity|]. split.
  - intros k k' [[-> ->]|[(i & E & E')|(i & -> & ->)]]; [reflexivity| |].
    + destruct i as [|[|i]]; cbn in E, E'; [injection E as <-; injection E' as <-; reflexivity..|destruct i; discriminate].
    + destruct (m_get (next (mkB 3 [] []) + i) _) eqn:G1; [apply m_get_In in G1; vm_compute in G1; destruct G1 as [G1|[G1|[G1|[]]]]; inversion G1|].
      symmetry. apply m_get_None. vm_compute. intros [Q|[Q|[Q|[Q|[]]]]]; discriminate.
  - vm_compute. repeat split.
Qed.
