(** C99, C100, C102: Merkle paths of any length; fixed points of the compression functions; length extension. *)
From Coq Require Import ZArith List Bool Arith Lia Znumtheory.
From Verif Require Import Base FieldM FieldP ExprM BuilderM GadgetsM CryptoM Spec SpecCrypto ExprP MonoP LocalP SoundP HonestP GadgetCompleteP CompleteP Demo PropLib CryptoP MiscP PropsCrypto.
Import ListNotations.
Open Scope Z_scope.

(** ** The inner nodes of a full tree.
    [subtree_root H k leaves i]: the root of the subtree over the leaves i * 2^k, ..., (i + 1) * 2^k - 1. *)
Definition subtree_root (H : Z -> Z -> Z) (k : nat) (leaves : list Z) (i : nat) : Z :=
  tree_root H k (firstn (2 ^ k) (skipn (i * 2 ^ k) leaves)).
(** All nodes at height [k] of a tree of height [k + n]. *)
Definition subtree_roots (H : Z -> Z -> Z) (k n : nat) (leaves : list Z) : list Z :=
  map (subtree_root H k leaves) (seq 0 (2 ^ n)).

Section Levels.
Variable H : Z -> Z -> Z.

Fixpoint levels (k : nat) (leaves : list Z) : list Z :=
  match k with O => leaves | S k' => levels k' (level_up H leaves) end.

Lemma tree_root_levels : forall k n leaves, tree_root H (k + n) leaves = tree_root H n (levels k leaves).
Proof. induction k as [|k IH]; intros n leaves; cbn; auto. Qed.
Lemma tree_calls_levels : forall k n leaves, incl (tree_calls H n (levels k leaves)) (tree_calls H (k + n) leaves).
Proof. induction k as [|k IH]; intros n leaves; cbn; [apply incl_refl|]. apply incl_appr, IH. Qed.
Lemma levels_length : forall k n leaves, length leaves = (2 ^ (k + n))%nat -> length (levels k leaves) = (2 ^ n)%nat.
Proof.
  induction k as [|k IH]; intros n leaves L; cbn [levels Nat.add] in *; [exact L|]. apply IH. rewrite Nat.pow_succ_r' in L.
  apply level_up_length, L.
Qed.

Lemma pairs_skipn : forall j l, pairs (skipn (2 * j) l) = skipn j (pairs l).
Proof.
  induction j as [|j IH]; intro l; [reflexivity|]. replace (2 * S j)%nat with (S (S (2 * j))) by lia.
  destruct l as [|a [|b t]]; cbn [skipn pairs]; try reflexivity; try (rewrite skipn_nil; reflexivity). apply IH.
Qed.
Lemma pairs_firstn : forall j l, pairs (firstn (2 * j) l) = firstn j (pairs l).
Proof.
  induction j as [|j IH]; intro l; [reflexivity|]. replace (2 * S j)%nat with (S (S (2 * j))) by lia.
  destruct l as [|a [|b t]]; cbn [firstn pairs]; try reflexivity. f_equal. apply IH.
Qed.
Lemma level_up_slice m j l : level_up H (firstn (2 * m) (skipn (2 * j) l)) = firstn m (skipn j (level_up H l)).
Proof. unfold level_up. rewrite pairs_firstn, pairs_skipn, skipn_map, firstn_map. reflexivity. Qed.

Lemma subtree_root_up k leaves i : subtree_root H k (level_up H leaves) i = subtree_root H (S k) leaves i.
Proof.
  unfold subtree_root. cbn [tree_root]. f_equal. rewrite Nat.pow_succ_r'. replace (i * (2 * 2 ^ k))%nat with (2 * (i * 2 ^ k))%nat by lia.
  symmetry. apply level_up_slice.
Qed.
Lemma list_nth : forall (l : list Z) n, length l = n -> l = map (fun i => nth i l 0) (seq 0 n).
Proof.
  intros l n <-. induction l as [|a l IH]; [reflexivity|]. cbn [length seq map nth]. f_equal. rewrite <- seq_shift, map_map. exact IH.
Qed.
Lemma levels_subtrees : forall k n leaves, length leaves = (2 ^ (k + n))%nat -> levels k leaves = subtree_roots H k n leaves.
Proof.
  induction k as [|k IH]; intros n leaves L.
  - cbn [levels]. rewrite (list_nth leaves _ L) at 1. apply map_ext_in. intros i Hi. unfold subtree_root. cbn [tree_root Nat.pow].
    rewrite Nat.mul_1_r. clear L Hi. revert i. induction leaves as [|a l IHl]; intros [|i]; cbn [skipn]; try reflexivity. apply (IHl i).
  - cbn [levels]. cbn [Nat.add] in L. rewrite Nat.pow_succ_r' in L. rewrite (IH n) by (apply level_up_length, L).
    apply map_ext. intro i. apply subtree_root_up.
Qed.
Lemma nth_subtree_roots k n leaves i : (i < 2 ^ n)%nat -> nth i (subtree_roots H k n leaves) 0 = subtree_root H k leaves i.
Proof.
  intro Hi. unfold subtree_roots. rewrite (nth_indep _ 0 (subtree_root H k leaves 0)) by (rewrite map_length, seq_length; exact Hi).
  rewrite map_nth, seq_nth by exact Hi. reflexivity.
Qed.
End Levels.

(** ** C99 *)
(** A path shorter than the tree is high: what is proved is an inner node, not a leaf. *)
Theorem C99_shorter : forall (H : Z -> Z -> Z) k bits leaf sibs leaves, Forall is_bit bits ->
  length sibs = length bits -> length leaves = (2 ^ (k + length bits))%nat ->
  path_fun H leaf bits sibs = tree_root H (k + length bits) leaves ->
  (leaf = subtree_root H k leaves (bits_index bits) /\
   sibs = tree_path H (length bits) (subtree_roots H k (length bits) leaves) (bits_index bits)) \/
  collision H (path_calls H leaf bits sibs) (tree_calls H (k + length bits) leaves).
Proof.
  intros H k bits leaf sibs leaves Hb Ls Ll E. rewrite tree_root_levels in E.
  destruct (C46_tree_binding H bits leaf sibs (levels H k leaves) Hb Ls (levels_length H _ _ _ Ll) E) as [[E1 E2]|C].
  - left. rewrite (levels_subtrees H k (length bits) leaves Ll) in E1, E2.
    rewrite nth_subtree_roots in E1 by apply bits_index_lt, Hb. auto.
  - right. eapply collision_incl; [apply incl_refl|apply tree_calls_levels|exact C].
Qed.
Print Assumptions C99_shorter.

(** ... and every inner node has such a path. *)
Theorem C99_inner_node : forall (H : Z -> Z -> Z) k bits leaves, Forall is_bit bits -> length leaves = (2 ^ (k + length bits))%nat ->
  path_fun H (subtree_root H k leaves (bits_index bits)) bits
    (tree_path H (length bits) (subtree_roots H k (length bits) leaves) (bits_index bits)) = tree_root H (k + length bits) leaves.
Proof.
  intros H k bits leaves Hb Ll. rewrite tree_root_levels, <- (C46_tree_path H bits (levels H k leaves) Hb (levels_length H _ _ _ Ll)).
  rewrite (levels_subtrees H k (length bits) leaves Ll), nth_subtree_roots by apply bits_index_lt, Hb. reflexivity.
Qed.
Print Assumptions C99_inner_node.

Lemma path_fun_app H leaf b1 b2 s1 s2 : length s1 = length b1 ->
  path_fun H leaf (b1 ++ b2) (s1 ++ s2) = path_fun H (path_fun H leaf b1 s1) b2 s2.
Proof.
  unfold path_fun. revert leaf s1. induction b1 as [|b b1 IH]; intros leaf [|s s1] L; try discriminate; [reflexivity|].
  injection L as L. cbn [app combine fold_left]. apply IH, L.
Qed.
Lemma path_calls_app H leaf b1 b2 s1 s2 : length s1 = length b1 ->
  path_calls H leaf (b1 ++ b2) (s1 ++ s2) = path_calls H leaf b1 s1 ++ path_calls H (path_fun H leaf b1 s1) b2 s2.
Proof.
  unfold path_fun. revert leaf s1. induction b1 as [|b b1 IH]; intros leaf [|s s1] L; try discriminate; [reflexivity|].
  injection L as L. cbn [app path_calls combine fold_left]. f_equal. apply IH, L.
Qed.
Lemma path_last_call H : forall bits leaf sibs, bits <> [] -> length sibs = length bits ->
  exists x, In x (path_calls H leaf bits sibs) /\ H (fst x) (snd x) = path_fun H leaf bits sibs.
Proof.
  induction bits as [|b bits IH]; intros leaf sibs N L; [contradiction|]. destruct sibs as [|s sibs]; [discriminate|]. injection L as L.
  destruct bits as [|b' bits].
  - destruct sibs; [|discriminate]. eexists. split; [left; reflexivity|]. unfold path_fun, path_step. cbn. destruct (b =? 0); reflexivity.
  - destruct (IH (path_step H leaf (b, s)) sibs ltac:(discriminate) L) as (x & I & E). exists x. split; [right; exact I|]. exact E.
Qed.

(** A path longer than the tree is high: the upper part is the tree's path, and the leaf of the tree at that index is itself the
    hash of the lower part of the path - so a leaf that is not a hash of known values cannot be extended. *)
Theorem C99_longer : forall (H : Z -> Z -> Z) bits1 bits2 leaf sibs1 sibs2 leaves, Forall is_bit bits2 ->
  length sibs1 = length bits1 -> length sibs2 = length bits2 -> length leaves = (2 ^ length bits2)%nat -> bits1 <> [] ->
  path_fun H leaf (bits1 ++ bits2) (sibs1 ++ sibs2) = tree_root H (length bits2) leaves ->
  (nth (bits_index bits2) leaves 0 = path_fun H leaf bits1 sibs1 /\ sibs2 = tree_path H (length bits2) leaves (bits_index bits2) /\
   exists a b, In (a, b) (path_calls H leaf bits1 sibs1) /\ H a b = nth (bits_index bits2) leaves 0) \/
  collision H (path_calls H leaf (bits1 ++ bits2) (sibs1 ++ sibs2)) (tree_calls H (length bits2) leaves).
Proof.
  intros H bits1 bits2 leaf sibs1 sibs2 leaves Hb L1 L2 Ll N E. rewrite path_fun_app in E by exact L1.
  destruct (C46_tree_binding H bits2 _ sibs2 leaves Hb L2 Ll E) as [[E1 E2]|C].
  - left. split; [auto|]. split; [exact E2|]. destruct (path_last_call H bits1 leaf sibs1 N L1) as ([a b] & I & Ex).
    exists a, b. split; [exact I|]. rewrite <- E1. exact Ex.
  - right. rewrite path_calls_app by exact L1. eapply collision_incl; [apply incl_appr, incl_refl|apply incl_refl|exact C].
Qed.
Print Assumptions C99_longer.

(** The gadget: in every satisfying assignment, against the root of a tree of any greater or equal height. *)
Theorem C99_membership : forall (F : Field), prime order -> forall m H leaf root path, computes2 m H ->
  length (prefix path) = length (siblings path) ->
  sound_call (assert_merkle_tree_membership m leaf root path) (fun w _ => bin_ok w (prefix path) ->
    forall k leaves, length leaves = (2 ^ (k + length (prefix path)))%nat ->
    ev w root = tree_root H (k + length (prefix path)) leaves ->
    ev w leaf = subtree_root H k leaves (bits_index (map (ev w) (prefix path))) \/
    collision H (path_calls H (ev w leaf) (map (ev w) (prefix path)) (map (ev w) (siblings path)))
      (tree_calls H (k + length (prefix path)) leaves)).
Proof.
  intros F Hp m H leaf root path Hm L b r b' w E Hw Hs Hb k leaves Ll Er.
  pose proof (C46_membership_sound F Hp m H leaf root path Hm b r b' w E Hw Hs Hb) as R. rewrite Er in R. symmetry in R.
  set (bits := map (ev w) (prefix path)) in *. set (sibs := map (ev w) (siblings path)) in *.
  assert (Lb : length (prefix path) = length bits) by (symmetry; apply map_length).
  assert (Ls : length sibs = length bits) by (unfold sibs; rewrite map_length; congruence).
  assert (Bb : Forall is_bit bits) by (apply Forall_map; exact Hb).
  rewrite Lb in R, Ll |- *. clearbody bits sibs.
  destruct (C99_shorter H k bits (ev w leaf) sibs leaves Bb Ls Ll R) as [[E1 _]|C]; [left; exact E1|right; exact C].
Qed.
Print Assumptions C99_membership.

(** The gadget accepts every inner node in place of a leaf: a verifier who does not fix the length of the path accepts
    values that are not leaves. *)
Theorem C99_inner_node_accepted : forall (F : Field), prime order -> forall m H vals leaf root path k leaves, completes2 m H ->
  good_inputs vals -> on_inputs vals leaf -> on_inputs vals root -> on_inputs_all vals (prefix path) -> on_inputs_all vals (siblings path) ->
  bin_ok (input_witness vals) (prefix path) ->
  let bits := map (wv vals) (prefix path) in
  length leaves = (2 ^ (k + length bits))%nat ->
  wv vals root = tree_root H (k + length bits) leaves -> wv vals leaf = subtree_root H k leaves (bits_index bits) ->
  map (wv vals) (siblings path) = tree_path H (length bits) (subtree_roots H k (length bits) leaves) (bits_index bits) ->
  runs vals (assert_merkle_tree_membership m leaf root path) (fun _ _ => True).
Proof.
  intros F Hp m H vals leaf root path k leaves Hm Hv Hl Hr Hb Hs Bb bits Ll Er El Es. apply (C46_membership_complete F Hp m H); auto.
  rewrite Er, El, Es. symmetry. apply C99_inner_node; [|exact Ll]. apply Forall_map. exact Bb.
Qed.
Print Assumptions C99_inner_node_accepted.

(** In a tree of height 3 over the field of 11 elements, the node over the leaves at 4 and 5 is accepted with a path of length 2,
    although it is not a leaf. *)
Example C99_example : let F : Field := F11 in let H := fun a b => (mimc_fun 3 [4; 9] b a + a) mod 11 in
  let leaves := [3; 1; 4; 1; 5; 9; 2; 7] in let root := tree_root H 3 leaves in
  subtree_root H 1 leaves 2 = H 5 9 /\
  ~ In (H 5 9) leaves /\
  match mimc_new [4; 9] with
  | Ok c => demo ([H 5 9; root] ++ [0; 1] ++ tree_path H 2 (subtree_roots H 1 2 leaves) 2)
      (assert_merkle_tree_membership (davies_meyer c) (e_wire 1) (e_wire 2) (mkPath (map e_wire [3; 4]%nat) (map e_wire [5; 6]%nat))) (fun _ => []) = Ok (true, [])
  | _ => False
  end.
Proof. vm_compute. split; [reflexivity|]. split; [|reflexivity]. intuition discriminate. Qed.

(** ** C100 *)
Section Fixed.
Context {F : Field} (Hp : prime order).
Variables (cs : list Z) (c : block_cipher).
Hypothesis Hcs : good_inputs cs.
Hypothesis Hc : mimc_new cs = Ok c.
Notation E := (mimc_fun 3 cs).

Lemma mimc_fun_infield k x : 0 <= E k x < order.
Proof using Hp. pose proof (prime_ge2 Hp). unfold mimc_fun. apply Z.mod_pos_bound. lia. Qed.

(** decryption, as evaluated, is the inverse of [E] *)
Lemma decrypt_evaluate_iff k y x : 0 <= k < order -> 0 <= y < order -> 0 <= x < order -> (decrypt_evaluate c k y = Ok x <-> E k x = y).
Proof using Hp Hcs Hc.
  intros Ik Iy Ix. destruct (mimc_facts Hp cs c Hcs Hc) as (g & _ & _ & B1 & B2 & I1 & I2).
  assert (D : decrypt_evaluate c k y = Ok (mdec g cs k y)) by (apply (evaluate2 Hp); assumption). rewrite D. split.
  - intro Q. injection Q as <-. apply I2, Iy.
  - intros <-. f_equal. apply I1, Ix.
Qed.
Lemma davies_meyer_evaluate x y : 0 <= x < order -> 0 <= y < order -> compress_evaluate (davies_meyer c) x y = Ok ((E y x + x) mod order).
Proof using Hp Hcs Hc.
  intros Ix Iy. destruct (mimc_facts Hp cs c Hcs Hc) as (g & _ & A & _).
  apply (evaluate2 Hp (davies_meyer c) (fun a b => (E b a + a) mod order)); [apply (completes2_davies_meyer Hp), A|exact Ix|exact Iy].
Qed.
Lemma miyaguchi_preneel_evaluate x y : 0 <= x < order -> 0 <= y < order ->
  compress_evaluate (miyaguchi_preneel c) x y = Ok ((E x y + x + y) mod order).
Proof using Hp Hcs Hc.
  intros Ix Iy. destruct (mimc_facts Hp cs c Hcs Hc) as (g & _ & A & _).
  apply (evaluate2 Hp (miyaguchi_preneel c) (fun a b => (E a b + a + b) mod order)); [apply (completes2_miyaguchi_preneel Hp), A|exact Ix|exact Iy].
Qed.
End Fixed.

(** Davies-Meyer: x is mapped to itself under y exactly when x is the decryption of zero under y. *)
Theorem C100_davies_meyer : forall (F : Field), prime order -> forall cs c, good_inputs cs -> mimc_new cs = Ok c ->
  forall x y, 0 <= x < order -> 0 <= y < order ->
  (compress_evaluate (davies_meyer c) x y = Ok x <-> decrypt_evaluate c y 0 = Ok x).
Proof.
  intros F Hp cs c Hcs Hc x y Ix Iy. pose proof (prime_ge2 Hp).
  rewrite (davies_meyer_evaluate Hp cs c Hcs Hc) by assumption. rewrite (decrypt_evaluate_iff Hp cs c Hcs Hc) by (assumption || lia).
  pose proof (mimc_fun_infield Hp cs y x) as Ie. split.
  - intro Q. injection Q as Q. destruct (Z_lt_ge_dec (mimc_fun 3 cs y x + x) order) as [L|G].
    + rewrite Z.mod_small in Q by lia. lia.
    + rewrite <- (Z.mod_unique (mimc_fun 3 cs y x + x) order 1 (mimc_fun 3 cs y x + x - order)) in Q; lia.
  - intros ->. rewrite Z.mod_small by lia. reflexivity.
Qed.
Print Assumptions C100_davies_meyer.

(** Miyaguchi-Preneel: the second argument is returned exactly when it is the decryption of -x under x. *)
Theorem C100_miyaguchi_preneel : forall (F : Field), prime order -> forall cs c, good_inputs cs -> mimc_new cs = Ok c ->
  forall x y, 0 <= x < order -> 0 <= y < order ->
  (compress_evaluate (miyaguchi_preneel c) x y = Ok y <-> decrypt_evaluate c x ((- x) mod order) = Ok y).
Proof.
  intros F Hp cs c Hcs Hc x y Ix Iy. pose proof (prime_ge2 Hp).
  rewrite (miyaguchi_preneel_evaluate Hp cs c Hcs Hc) by assumption.
  rewrite (decrypt_evaluate_iff Hp cs c Hcs Hc) by (assumption || (apply Z.mod_pos_bound; lia)).
  pose proof (mimc_fun_infield Hp cs x y) as Ie. remember (mimc_fun 3 cs x y) as e eqn:Ee. clear Ee. split.
  - intro Q. injection Q as Q. assert (Q' : (e + x) mod order = 0).
    { replace (e + x) with (e + x + y - y) by ring. rewrite Zminus_mod, Q, (Z.mod_small y) by exact Iy. rewrite Z.sub_diag. apply Z.mod_0_l. lia. }
    rewrite <- (Z.mod_small e order) by exact Ie. replace e with (e + x - x) by ring. rewrite Zminus_mod, Q'.
    rewrite Zminus_mod_idemp_r. reflexivity.
  - intros ->. f_equal. rewrite <- Z.add_assoc, Zplus_mod_idemp_l. replace (- x + (x + y)) with y by ring. apply Z.mod_small, Iy.
Qed.
Print Assumptions C100_miyaguchi_preneel.

(** Hence every y has exactly one fixed point, found by one decryption. *)
Theorem C100_exists : forall (F : Field), prime order -> forall cs c, good_inputs cs -> mimc_new cs = Ok c -> forall y, 0 <= y < order ->
  (exists x, 0 <= x < order /\ compress_evaluate (davies_meyer c) x y = Ok x /\
     forall x', 0 <= x' < order -> compress_evaluate (davies_meyer c) x' y = Ok x' -> x' = x) /\
  (exists z, 0 <= z < order /\ compress_evaluate (miyaguchi_preneel c) y z = Ok z /\
     forall z', 0 <= z' < order -> compress_evaluate (miyaguchi_preneel c) y z' = Ok z' -> z' = z).
Proof.
  intros F Hp cs c Hcs Hc y Iy. pose proof (prime_ge2 Hp).
  assert (X : forall k t, 0 <= k < order -> 0 <= t < order -> exists x, 0 <= x < order /\ decrypt_evaluate c k t = Ok x).
  { intros k t Ik It. destruct (mimc_facts Hp cs c Hcs Hc) as (g & _ & _ & B1 & B2 & _).
    exists (mdec g cs k t). split; [|apply (evaluate2 Hp); assumption]. unfold mdec. apply Z.mod_pos_bound. lia. }
  split.
  - destruct (X y 0 Iy ltac:(lia)) as (x & Ix & D). exists x. split; [exact Ix|]. split; [apply (C100_davies_meyer F Hp cs); assumption|].
    intros x' Ix' E'. apply (C100_davies_meyer F Hp cs c Hcs Hc) in E'; [congruence|assumption..].
  - destruct (X y ((- y) mod order) Iy ltac:(apply Z.mod_pos_bound; lia)) as (x & Ix & D). exists x. split; [exact Ix|].
    split; [apply (C100_miyaguchi_preneel F Hp cs); assumption|].
    intros x' Ix' E'. apply (C100_miyaguchi_preneel F Hp cs c Hcs Hc) in E'; [congruence|assumption..].
Qed.
Print Assumptions C100_exists.

(** Merkle-Damgard over Davies-Meyer: once the state is the fixed point for the block y, any number of blocks y may be inserted;
    only the length block tells the messages apart. *)
Theorem C100_expandable : forall (H : Z -> Z -> Z) iv l1 y n l2, H (fold_left H l1 iv) y = fold_left H l1 iv ->
  fold_left H (l1 ++ repeat y n ++ l2) iv = fold_left H (l1 ++ l2) iv /\
  md_fun H iv (l1 ++ repeat y n ++ l2) = H (fold_left H (l1 ++ l2) iv) (Z.of_nat (length (l1 ++ l2) + n)).
Proof.
  intros H iv l1 y n l2 Hf.
  assert (E : fold_left H (l1 ++ repeat y n ++ l2) iv = fold_left H (l1 ++ l2) iv).
  { rewrite !fold_left_app. f_equal. induction n as [|n IH]; [reflexivity|]. cbn [repeat fold_left]. rewrite Hf. exact IH. }
  split; [exact E|]. unfold md_fun. rewrite E. f_equal. f_equal. rewrite !app_length, repeat_length. lia.
Qed.
Print Assumptions C100_expandable.

Theorem C100_merkle_damgard : forall (F : Field), prime order -> forall cs c, good_inputs cs -> mimc_new cs = Ok c ->
  forall iv y n, 0 <= y < order -> decrypt_evaluate c y 0 = Ok iv -> 0 <= iv < order -> Z.of_nat n < order ->
  hash_evaluate (merkle_damgard iv (davies_meyer c)) (repeat y n) = compress_evaluate (davies_meyer c) iv (Z.of_nat n).
Proof.
  intros F Hp cs c Hcs Hc iv y n Iy D Iv Ln. destruct (mimc_facts Hp cs c Hcs Hc) as (g & A1 & A2 & _).
  set (H := fun a b => (mimc_fun 3 cs b a + a) mod order).
  assert (S : computes2 (davies_meyer c) H) by (apply (computes2_davies_meyer Hp), A1).
  assert (C : completes2 (davies_meyer c) H) by (apply (completes2_davies_meyer Hp), A2).
  assert (V : hash_evaluate (merkle_damgard iv (davies_meyer c)) (repeat y n) = Ok (md_fun H iv (repeat y n))).
  { apply run_const_runs. apply (to_runs1 Hp); [constructor|]. apply (cmpl_merkle_damgard Hp); auto.
    - clear Ln. induction n; cbn [repeat map]; constructor; [apply (has_const0 Hp); assumption|assumption].
    - rewrite map_length, repeat_length. exact Ln. }
  rewrite V, (davies_meyer_evaluate Hp cs c Hcs Hc) by (assumption || lia). f_equal.
  assert (Fx : H iv y = iv).
  { apply (C100_davies_meyer F Hp cs c Hcs Hc) in D; [|assumption..]. rewrite (davies_meyer_evaluate Hp cs c Hcs Hc) in D by assumption.
    injection D as D. exact D. }
  pose proof (proj2 (C100_expandable H iv [] y n [] Fx)) as Q. cbn [app length Nat.add fold_left] in Q. rewrite app_nil_r in Q. exact Q.
Qed.
Print Assumptions C100_merkle_damgard.

(** Merkle trees over Davies-Meyer: a leaf that is the decryption of zero under y is accepted at every depth below any position
    where it is accepted. *)
Theorem C100_merkle_tree : forall (F : Field), prime order -> forall cs c, good_inputs cs -> mimc_new cs = Ok c ->
  forall vals leaf root path y n bits sibs,
  good_inputs vals -> on_inputs vals leaf -> on_inputs vals root -> on_inputs_all vals (prefix path) -> on_inputs_all vals (siblings path) ->
  0 <= y < order -> decrypt_evaluate c y 0 = Ok (wv vals leaf) -> Forall is_bit bits ->
  map (wv vals) (prefix path) = repeat 0 n ++ bits -> map (wv vals) (siblings path) = repeat y n ++ sibs ->
  wv vals root = path_fun (fun a b => (mimc_fun 3 cs b a + a) mod order) (wv vals leaf) bits sibs ->
  runs vals (assert_merkle_tree_membership (davies_meyer c) leaf root path) (fun _ _ => True).
Proof.
  intros F Hp cs c Hcs Hc vals leaf root path y n bits sibs Hv Hl Hr Hb Hs Iy D Bb Ep Es Er.
  apply (C46_mimc_membership_complete F Hp cs c Hcs Hc); auto.
  - unfold bin_ok. apply Forall_map with (f := ev (input_witness vals)). rewrite Ep. apply Forall_app. split; [|exact Bb].
    apply Forall_forall. intros x Ix. apply repeat_spec in Ix. left. exact Ix.
  - rewrite Er, Ep, Es. rewrite path_fun_app by (rewrite !repeat_length; reflexivity). f_equal.
    pose proof (ev_field Hp (input_witness vals) leaf) as Il.
    apply (C100_davies_meyer F Hp cs c Hcs Hc) in D; [|assumption..]. rewrite (davies_meyer_evaluate Hp cs c Hcs Hc) in D by assumption.
    injection D as D. clear -D. induction n as [|n IH]; [reflexivity|]. unfold path_fun. cbn [repeat combine fold_left].
    unfold path_step at 2. cbn [fst snd Z.eqb]. rewrite D. exact IH.
Qed.
Print Assumptions C100_merkle_tree.

(** The same over Miyaguchi-Preneel, with the leaf on the right. *)
Theorem C100_merkle_tree_right : forall (F : Field), prime order -> forall cs c, good_inputs cs -> mimc_new cs = Ok c ->
  forall vals leaf root path y n bits sibs,
  good_inputs vals -> on_inputs vals leaf -> on_inputs vals root -> on_inputs_all vals (prefix path) -> on_inputs_all vals (siblings path) ->
  0 <= y < order -> decrypt_evaluate c y ((- y) mod order) = Ok (wv vals leaf) -> Forall is_bit bits ->
  map (wv vals) (prefix path) = repeat 1 n ++ bits -> map (wv vals) (siblings path) = repeat y n ++ sibs ->
  wv vals root = path_fun (fun a b => (mimc_fun 3 cs a b + a + b) mod order) (wv vals leaf) bits sibs ->
  runs vals (assert_merkle_tree_membership (miyaguchi_preneel c) leaf root path) (fun _ _ => True).
Proof.
  intros F Hp cs c Hcs Hc vals leaf root path y n bits sibs Hv Hl Hr Hb Hs Iy D Bb Ep Es Er.
  destruct (mimc_facts Hp cs c Hcs Hc) as (g & _ & A & _).
  apply (C46_membership_complete F Hp _ (fun a b => (mimc_fun 3 cs a b + a + b) mod order)); auto.
  - apply (completes2_miyaguchi_preneel Hp), A.
  - unfold bin_ok. apply Forall_map with (f := ev (input_witness vals)). rewrite Ep. apply Forall_app. split; [|exact Bb].
    apply Forall_forall. intros x Ix. apply repeat_spec in Ix. right. exact Ix.
  - rewrite Er, Ep, Es. rewrite path_fun_app by (rewrite !repeat_length; reflexivity). f_equal.
    pose proof (ev_field Hp (input_witness vals) leaf) as Il.
    apply (C100_miyaguchi_preneel F Hp cs c Hcs Hc) in D; [|assumption..]. rewrite (miyaguchi_preneel_evaluate Hp cs c Hcs Hc) in D by assumption.
    injection D as D. clear -D. induction n as [|n IH]; [reflexivity|]. unfold path_fun. cbn [repeat combine fold_left].
    unfold path_step at 2. cbn [fst snd Z.eqb]. rewrite D. exact IH.
Qed.
Print Assumptions C100_merkle_tree_right.

Example C100_example : let F : Field := F11 in
  match mimc_new [4; 9] with
  | Ok c => match decrypt_evaluate c 7 0 with
    | Ok x => compress_evaluate (davies_meyer c) x 7 = Ok x /\ In x [0; 1; 2; 3; 4; 5; 6; 7; 8; 9; 10] /\
        hash_evaluate (merkle_damgard x (davies_meyer c)) [7; 7; 7] = compress_evaluate (davies_meyer c) x 3 /\
        demo [x; x; 0; 0; 7; 7] (assert_merkle_tree_membership (davies_meyer c) (e_wire 1) (e_wire 2) (mkPath (map e_wire [3; 4]%nat) (map e_wire [5; 6]%nat)))
          (fun _ => []) = Ok (true, [])
    | _ => False
    end
  | _ => False
  end.
Proof. vm_compute. intuition. Qed.

(** ** C102 *)
(** The hash of a message followed by its length and an extension is determined by the hash of the message, its length and the extension. *)
Theorem C102_value : forall (H : Z -> Z -> Z) iv l ext,
  md_fun H iv (l ++ Z.of_nat (length l) :: ext) = H (fold_left H ext (md_fun H iv l)) (Z.of_nat (length l + 1 + length ext)).
Proof.
  intros H iv l ext. unfold md_fun. rewrite fold_left_app. cbn [fold_left]. f_equal. f_equal. rewrite app_length. cbn [length]. lia.
Qed.
Print Assumptions C102_value.

(** As computed by the code: compressing from the known hash, without the message or the initial value. *)
Definition compress_from {F : Field} (m : compression) (h : Z) (blocks : list Z) : outcome Z :=
  fold_left (fun acc b => let! a := acc in compress_evaluate m a b) blocks (Ok h).
Theorem C102_evaluate : forall (F : Field), prime order -> forall iv m H, 0 <= iv < order -> computes2 m H -> completes2 m H -> (forall a b, 0 <= H a b < order) ->
  forall l ext h, Forall (fun x => 0 <= x < order) l -> Forall (fun x => 0 <= x < order) ext -> Z.of_nat (length l + 1 + length ext) < order ->
  hash_evaluate (merkle_damgard iv m) l = Ok h ->
  hash_evaluate (merkle_damgard iv m) (l ++ Z.of_nat (length l) :: ext) = compress_from m h (ext ++ [Z.of_nat (length l + 1 + length ext)]).
Proof.
  intros F Hp iv m H Iv S C R l ext h Il Ie L Eh.
  assert (V : forall k, Forall (fun x => 0 <= x < order) k -> Z.of_nat (length k) < order -> hash_evaluate (merkle_damgard iv m) k = Ok (md_fun H iv k)).
  { intros k Ik Lk. apply run_const_runs. apply (to_runs1 Hp); [constructor|].
    assert (Hl : hasl (s0 []) (map e_const k) k) by (clear Lk; induction Ik; cbn [map]; constructor; [apply (has_const0 Hp); assumption|assumption]).
    apply (cmpl_merkle_damgard Hp); auto. rewrite map_length. exact Lk. }
  rewrite V in Eh by (assumption || lia). injection Eh as <-. rewrite V.
  2:{ apply Forall_app. split; [exact Il|]. constructor; [lia|exact Ie]. }
  2:{ rewrite app_length. cbn [length]. lia. }
  rewrite C102_value. unfold compress_from. rewrite fold_left_app. cbn [fold_left].
  assert (Fo : forall k a, 0 <= a < order -> Forall (fun x => 0 <= x < order) k ->
    fold_left (fun acc b => let! x := acc in compress_evaluate m x b) k (Ok a) = Ok (fold_left H k a) /\ 0 <= fold_left H k a < order).
  { induction k as [|y k IH]; intros a Ia Ik; cbn [fold_left]; [auto|]. apply Forall_cons_iff in Ik. cbn [obind].
    replace (compress_evaluate m a y) with (Ok (H a y)) by (symmetry; apply (evaluate2 Hp); [exact C|exact Ia|apply Ik]). apply IH; [apply R|apply Ik]. }
  destruct (Fo ext (md_fun H iv l)) as [-> I]; [apply R|exact Ie|]. cbn [obind]. symmetry. apply (evaluate2 Hp); [exact C|exact I|unfold infield; lia].
Qed.
Print Assumptions C102_evaluate.

(** In circuit: a circuit that hashes a secret prefix and publishes the result also fixes the hash of the extension. *)
Theorem C102_circuit : forall (F : Field), prime order -> forall iv m H blocks ext, 0 <= iv < order -> computes2 m H ->
  sound_call (h1 <- merkle_damgard iv m blocks ;; h2 <- merkle_damgard iv m (blocks ++ e_const (Z.of_nat (length blocks)) :: ext) ;; bret (h1, h2))
    (fun w hs => ev w (snd hs) = H (fold_left H (map (ev w) ext) (ev w (fst hs))) (Z.of_nat (length blocks + 1 + length ext))).
Proof.
  intros F Hp iv m H blocks ext Iv Hm. assert (M : forall x y, mono (m x y)) by apply Hm. apply to_call. intros w Hw.
  eapply sound_bind; [apply (snd_merkle_damgard Hp w Hw iv m H); assumption|intro; apply mono_bind; [apply mono_merkle_damgard, M|intro; auto with mono]|].
  cbv beta. intros h1 [_ E1]. eapply sound_bind; [apply (snd_merkle_damgard Hp w Hw iv m H); assumption|intro; auto with mono|].
  cbv beta. intros h2 [L E2]. apply sound_ret. cbn [fst snd]. rewrite E2, E1, map_app. cbn [map].
  assert (Lb : Z.of_nat (length blocks) < order) by (rewrite app_length in L; cbn [length] in L; lia).
  rewrite (ev_const_ Hp) by (exact Hw || (unfold infield; lia)).
  pose proof (C102_value H iv (map (ev w) blocks) (map (ev w) ext)) as Q. rewrite !map_length in Q. exact Q.
Qed.
Print Assumptions C102_circuit.

Example C102_example : let F : Field := F11 in
  match mimc_new [4; 9] with
  | Ok c => match hash_evaluate (merkle_damgard 5 (davies_meyer c)) [3; 8] with
    | Ok h => hash_evaluate (merkle_damgard 5 (davies_meyer c)) [3; 8; 2; 7] = compress_from (davies_meyer c) h [7; 4] /\
              hash_evaluate (merkle_damgard 5 (davies_meyer c)) [3; 8; 2; 7] <> hash_evaluate (merkle_damgard 5 (davies_meyer c)) [3; 8]
    | _ => False
    end
  | _ => False
  end.
Proof. vm_compute. split; [reflexivity|discriminate]. Qed.
