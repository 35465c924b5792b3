(** C107: replacing leaves of a Merkle tree. *)
From Coq Require Import ZArith List Bool Arith Lia Znumtheory.
From Verif Require Import Base FieldM FieldP ExprM BuilderM GadgetsM CryptoM Spec SpecCrypto ExprP MonoP LocalP SoundP HonestP GadgetCompleteP CompleteP Demo PropLib CryptoP MiscP PropsCrypto.
Import ListNotations.
Open Scope Z_scope.

(** ** Specification: the list of leaves with one of them replaced *)
Fixpoint put (i : nat) (x : Z) (l : list Z) : list Z :=
  match i, l with
  | _, [] => []
  | O, _ :: l' => x :: l'
  | S i', y :: l' => y :: put i' x l'
  end.

Lemma put_length i : forall x l, length (put i x l) = length l.
Proof. induction i as [|i IH]; intros x [|y l]; simpl; auto. Qed.
Lemma put_same i : forall x l d, (i < length l)%nat -> nth i (put i x l) d = x.
Proof. induction i as [|i IH]; intros x [|y l] d L; simpl in *; try lia; auto. apply IH. lia. Qed.
Lemma put_other i : forall j x l d, j <> i -> nth j (put i x l) d = nth j l d.
Proof. induction i as [|i IH]; intros [|j] x [|y l] d N; simpl; try reflexivity; try lia. apply IH. lia. Qed.

Section Tree.
Variable H : Z -> Z -> Z.
Lemma level_up_put : forall n i x l, length l = (n + n)%nat -> (i < n + n)%nat -> exists y, level_up H (put i x l) = put (i / 2) y (level_up H l).
Proof using.
  induction n as [|n IH]; intros i x l L I; [lia|]. destruct l as [|a [|b l]]; simpl in L; try lia. unfold level_up in *. destruct i as [|[|i]].
  - exists (H x b). reflexivity.
  - exists (H a x). reflexivity.
  - destruct (IH i x l) as [y Y]; [lia|lia|]. exists y. cbn [put pairs map]. rewrite Y. replace (S (S i)) with (i + 1 * 2)%nat by lia. rewrite Nat.div_add by lia.
    rewrite Nat.add_1_r. reflexivity.
Qed.
Lemma level_up_length : forall n l, length l = (n + n)%nat -> length (level_up H l) = n.
Proof using.
  unfold level_up. induction n as [|n IH]; intros l L; destruct l as [|a [|b l]]; simpl in L; try lia; [reflexivity|]. cbn [pairs map length]. rewrite IH by lia. reflexivity.
Qed.
(** The siblings of a leaf do not depend on the leaf. *)
Lemma tree_path_put : forall d i x l, length l = (2 ^ d)%nat -> (i < 2 ^ d)%nat -> tree_path H d (put i x l) i = tree_path H d l i.
Proof using.
  induction d as [|d IH]; intros i x l L I; [reflexivity|]. cbn [tree_path]. assert (L' : length l = (2 ^ d + 2 ^ d)%nat) by (cbn [Nat.pow] in L; lia).
  rewrite put_other by (destruct (Nat.even i) eqn:E; [lia|]; destruct i; [discriminate|lia]). f_equal.
  destruct (level_up_put (2 ^ d) i x l L') as [y Y]; [cbn [Nat.pow] in I; lia|]. rewrite Y. apply IH; [apply level_up_length, L'|]. apply Nat.div_lt_upper_bound; [lia|]. cbn [Nat.pow] in I. lia.
Qed.
End Tree.

(** ** C107 *)
(** A path of a full tree still leads to the root when its leaf is replaced. *)
Theorem C107_replaced : forall (H : Z -> Z -> Z) bits leaves x, Forall is_bit bits -> length leaves = (2 ^ length bits)%nat ->
  path_fun H x bits (tree_path H (length bits) leaves (bits_index bits)) = tree_root H (length bits) (put (bits_index bits) x leaves).
Proof.
  intros H bits leaves x Hb L. assert (I : (bits_index bits < 2 ^ length bits)%nat) by apply bits_index_lt, Hb.
  rewrite <- (tree_path_put H (length bits) (bits_index bits) x leaves L I). rewrite <- (C46_tree_path H bits (put (bits_index bits) x leaves) Hb) by (rewrite put_length; exact L).
  rewrite put_same by lia. reflexivity.
Qed.
Print Assumptions C107_replaced.

(** The circuit for one replacement, from two calls of merkle_trees.rs: the path proves the old leaf, and the same path gives the root with the new leaf. *)
Definition update {F : Field} (m : compression) (root : expr) (u : expr * expr * merkle_path) : B expr :=
  let '(old, new, path) := u in assert_merkle_tree_membership m old root path ;; merkle_tree_root m new path.
(** A sequence of replacements, from the root of the tree before to the root of the tree after. *)
Definition updates {F : Field} (m : compression) (root : expr) (us : list (expr * expr * merkle_path)) : B expr := bfold (update m) us root.

(** What they mean: index, old and new leaf. *)
Definition index {F : Field} (w : witness) (u : expr * expr * merkle_path) : nat := bits_index (map (ev w) (prefix (snd u))).
Definition replay {F : Field} (w : witness) (us : list (expr * expr * merkle_path)) (leaves : list Z) : list Z :=
  fold_left (fun l u => put (index w u) (ev w (snd (fst u))) l) us leaves.
(** Each old leaf is the one that stands at the index when its turn comes. *)
Fixpoint right_leaves {F : Field} (w : witness) (us : list (expr * expr * merkle_path)) (leaves : list Z) : Prop :=
  match us with
  | [] => True
  | u :: us' => ev w (fst (fst u)) = nth (index w u) leaves 0 /\ right_leaves w us' (put (index w u) (ev w (snd (fst u))) leaves)
  end.

Lemma mono_update {F : Field} m root u : (forall x y, mono (m x y)) -> mono (update m root u).
Proof.
  intro M. destruct u as [[old new] path]. unfold update, assert_merkle_tree_membership. apply mono_bind; [apply mono_bind; [apply mono_merkle_root, M|intro; mono]|].
  intros _. apply mono_merkle_root, M.
Qed.

(** In every satisfying assignment in which the first root is that of a full tree, every old leaf is right and the last root is that of the tree with all the replacements made,
    unless one of the paths contains a collision with the tree as it stands then. *)
Theorem C107_updates : forall (F : Field), prime order -> forall m H, computes2 m H -> forall n us root,
  Forall (fun u => length (prefix (snd u)) = n /\ length (siblings (snd u)) = n) us ->
  sound_call (updates m root us) (fun w r => Forall (fun u => bin_ok w (prefix (snd u))) us ->
    forall leaves, length leaves = (2 ^ n)%nat -> ev w root = tree_root H n leaves ->
    (right_leaves w us leaves /\ ev w r = tree_root H n (replay w us leaves)) \/
    exists before u after, us = before ++ u :: after /\
      collision H (path_calls H (ev w (fst (fst u))) (map (ev w) (prefix (snd u))) (map (ev w) (siblings (snd u)))) (tree_calls H n (replay w before leaves))).
Proof.
  intros F Hp m H Hm n us root HL b r b' w E Hw Hs Hb leaves Ll Er. assert (M : forall x y, mono (m x y)) by apply Hm.
  revert root leaves b E Ll Er. induction us as [|[[old new] path] us IH]; intros root leaves b E Ll Er.
  - unfold updates in E. cbn [bfold] in E. injection E as <- <-. left. cbn. auto.
  - inversion HL as [|? ? [L1 L2] HL']; subst. inversion Hb as [|? ? Hb1 Hb']; subst. cbn [fst snd] in *.
    unfold updates in E. cbn [bfold] in E. unfold bbind at 1 in E. destruct (update m root (old, new, path) b) as [[r1 b1]| |] eqn:E1; try discriminate.
    assert (S1 : sat w b1). { eapply sat_extends; [|exact Hs]. eapply (mono_bfold (update m)); [intros; apply mono_update, M|exact E]. }
    assert (U : ev w root = path_fun H (ev w old) (map (ev w) (prefix path)) (map (ev w) (siblings path)) /\
                ev w r1 = path_fun H (ev w new) (map (ev w) (prefix path)) (map (ev w) (siblings path))).
    { unfold update, bbind in E1. destruct (assert_merkle_tree_membership m old root path b) as [[x b0]| |] eqn:E0; try discriminate.
      split; [|exact (snd_merkle_root Hp w Hw m H new path Hm Hb1 b0 r1 b1 E1 S1)].
      refine (snd_merkle_membership Hp w Hw m H old root path Hm Hb1 b x b0 E0 _). eapply sat_extends; [|exact S1]. eapply mono_merkle_root; [exact M|exact E1]. }
    destruct U as [U1 U2]. set (bits := map (ev w) (prefix path)) in *. assert (Lb : length bits = length (prefix path)) by apply map_length.
    assert (Bb : Forall is_bit bits) by (apply Forall_map; exact Hb1).
    rewrite Er, <- Lb in U1. symmetry in U1.
    destruct (C46_tree_binding H bits (ev w old) (map (ev w) (siblings path)) leaves Bb ltac:(rewrite map_length; lia) ltac:(rewrite Lb; exact Ll) U1) as [[K1 K2]|C].
    + rewrite K2 in U2. rewrite (C107_replaced H bits leaves (ev w new) Bb) in U2 by (rewrite Lb; exact Ll). rewrite Lb in U2.
      destruct (IH HL' Hb' r1 (put (bits_index bits) (ev w new) leaves) b1 E ltac:(rewrite put_length; exact Ll) U2) as [[R1 R2]|(before & u & after & -> & C)].
      * left. split; [split; [exact K1|exact R1]|exact R2].
      * right. exists ((old, new, path) :: before), u, after. split; [reflexivity|exact C].
    + right. exists [], (old, new, path), us. split; [reflexivity|]. cbn [fst snd replay fold_left]. fold bits. rewrite Lb in C. exact C.
Qed.
Print Assumptions C107_updates.

(** Conversely, honest replacements execute: with the right old leaf and the tree's own siblings each time. *)
Theorem C107_honest : forall (F : Field), prime order -> forall m H, completes2 m H -> forall n us root vals leaves, good_inputs vals -> on_inputs vals root ->
  Forall (fun u => on_inputs vals (fst (fst u)) /\ on_inputs vals (snd (fst u)) /\ on_inputs_all vals (prefix (snd u)) /\ on_inputs_all vals (siblings (snd u)) /\
    length (prefix (snd u)) = n /\ bin_ok (input_witness vals) (prefix (snd u))) us ->
  length leaves = (2 ^ n)%nat -> wv vals root = tree_root H n leaves -> right_leaves (input_witness vals) us leaves ->
  (forall before u after, us = before ++ u :: after ->
    map (wv vals) (siblings (snd u)) = tree_path H n (replay (input_witness vals) before leaves) (index (input_witness vals) u)) ->
  runs vals (updates m root us) (fun r v => e_evaluate v r = Ok (tree_root H n (replay (input_witness vals) us leaves))).
Proof.
  intros F Hp m H Hm n us root vals leaves Hv Hr HU Ll Er Hl Hsib. apply (to_runs1 Hp); [exact Hv|]. set (w := input_witness vals) in *.
  assert (G : forall us s rt lv, ext (s0 vals) s -> has s rt (tree_root H n lv) -> length lv = (2 ^ n)%nat ->
    Forall (fun u => on_inputs vals (fst (fst u)) /\ on_inputs vals (snd (fst u)) /\ on_inputs_all vals (prefix (snd u)) /\ on_inputs_all vals (siblings (snd u)) /\
      length (prefix (snd u)) = n /\ bin_ok w (prefix (snd u))) us ->
    right_leaves w us lv -> (forall before u after, us = before ++ u :: after -> map (wv vals) (siblings (snd u)) = tree_path H n (replay w before lv) (index w u)) ->
    comp (fun k => (k <= length vals)%nat) [] s (updates m rt us) (done [] (fun r s' => has s' r (tree_root H n (replay w us lv))))).
  { clear us root leaves Hr HU Ll Er Hl Hsib. induction us as [|[[old new] path] us IH]; intros s rt lv X Hrt Ll HU Hl Hsib; unfold updates; cbn [bfold]; [apply comp_ret; split; [reflexivity|exact Hrt]|].
    inversion HU as [|? ? (I1 & I2 & I3 & I4 & Ln & Bb) HU']; subst. cbn [fst snd] in *. destruct Hl as [Hl1 Hl2].
    set (bits := map (wv vals) (prefix path)). assert (Lb : length bits = length (prefix path)) by apply map_length. assert (Bits : Forall is_bit bits) by (apply Forall_map; exact Bb).
    pose proof (Hsib [] (old, new, path) us eq_refl) as S0. cbn [replay fold_left fst snd] in S0. unfold index in S0, Hl1, Hl2. cbn [fst snd] in *. change (map (ev w) (prefix path)) with bits in *.
    pose proof (has_ext _ _ _ _ X (has_input _ _ I1)) as A1. pose proof (has_ext _ _ _ _ X (has_input _ _ I2)) as A2.
    pose proof (hasl_ext _ _ _ _ X (hasl_input _ _ I3)) as A3. pose proof (hasl_ext _ _ _ _ X (hasl_input _ _ I4)) as A4.
    assert (Hrt' : has s rt (path_fun H (wv vals old) bits (map (wv vals) (siblings path)))).
    { rewrite S0. change (wv vals old) with (ev w old). rewrite Hl1. rewrite <- Lb. rewrite (C46_tree_path H bits lv Bits) by (rewrite Lb; exact Ll). rewrite Lb. exact Hrt. }
    eapply comp_bind.
    - unfold update. eapply comp_bind; [eapply (cmpl_merkle_membership Hp); [exact Hm|exact A1|exact A3|exact A4|exact Bits|exact Hrt']|]. cbv beta. intros ? P1 s1 X1 G1 [-> _]. carry.
      eapply (cmpl_merkle_root Hp); [exact Hm|exact A2|exact A3|exact A4|exact Bits].
    - cbv beta. intros r1 P1 s1 X1 G1 [-> R1]. fold bits in R1. rewrite S0, <- Lb, (C107_replaced H bits lv _ Bits), Lb in R1 by (rewrite Lb; exact Ll).
      eapply (IH s1 r1 (put (bits_index bits) (ev w new) lv)); [eapply ext_trans; eauto|exact R1|rewrite put_length; exact Ll|exact HU'|exact Hl2|].
      intros before u after ->. exact (Hsib ((old, new, path) :: before) u after eq_refl). }
  apply G; try assumption; [apply ext_refl|]. rewrite <- Er. apply has_input, Hr.
Qed.
Print Assumptions C107_honest.

(** Four leaves over the integers modulo 11, hashed with Davies-Meyer over MiMC: leaf 2 is replaced by 7, then leaf 3 by 8; the root found in the circuit is the one of the new tree.
    With a wrong old leaf the second replacement is refused. *)
Example C107_example : let F : Field := F11 in let H := fun a b => (mimc_fun 3 [4; 9] b a + a) mod 11 in
  let l0 := [3; 1; 4; 1] in let l1 := put 2 7 l0 in let l2 := put 3 8 l1 in
  let path i := mkPath (map e_wire [i; S i]) (map e_wire [S (S i); S (S (S i))]) in
  let run old := match mimc_new [4; 9] with
    | Ok c => demo ([tree_root H 2 l0; 4; 7; 0; 1] ++ tree_path H 2 l0 2 ++ [old; 8; 1; 1] ++ tree_path H 2 l1 3)
        (updates (davies_meyer c) (e_wire 1) [(e_wire 2, e_wire 3, path 4%nat); (e_wire 8, e_wire 9, path 10%nat)]) (fun r => [r])
    | _ => Panic
    end in
  l2 = [3; 1; 7; 8] /\ tree_root H 2 l2 <> tree_root H 2 l0 /\ run 1 = Ok (true, [tree_root H 2 l2]) /\ (exists r, run 5 = Ok (false, r)).
Proof. cbv zeta. split; [reflexivity|]. split; [vm_compute; discriminate|]. split; [vm_compute; reflexivity|]. eexists. vm_compute. reflexivity. Qed.
