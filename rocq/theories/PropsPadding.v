(** C114: exactly which inputs the sponge's padding confuses, and a padding that confuses none. *)
From Coq Require Import ZArith List Bool Arith Lia Znumtheory.
From Verif Require Import Base FieldM FieldP ExprM BuilderM GadgetsM CryptoM Spec SpecCrypto ExprP BitsP MonoP LocalP SoundP CmpP GadgetSoundP
  HonestP ExecP CoreP CompleteP SatP ForgeP Demo PropLib CryptoP SpongeP PropsCost PropsCrypto.
Import ListNotations.
Open Scope Z_scope.
Local Notation wv vals := (ev (input_witness vals)).

(** ** Client circuit, not code of /repo: a one after the message marks its end. *)
Definition sponge_marked {F : Field} (s : sponge) (inputs : list expr) (n : nat) : B (list expr) :=
  sponge_evaluate s (inputs ++ [e_one]) n.

(** ** blocks and their concatenation *)
Lemma blocks_concat r : (0 < r)%nat -> forall f l, (length l <= f)%nat ->
  exists k, (k < r)%nat /\ ((length l + k) mod r = 0)%nat /\ concat (blocks_fuel f r l) = l ++ repeat 0 k /\
    Forall (fun b => length b = r) (blocks_fuel f r l).
Proof.
  intros R. induction f as [|f IH]; intros l L.
  - destruct l; [|cbn in L; lia]. exists 0%nat. split; [lia|]. split; [apply Nat.mod_0_l; lia|]. split; [reflexivity|constructor].
  - destruct l as [|x l]; [exists 0%nat; split; [lia|]; split; [apply Nat.mod_0_l; lia|]; split; [reflexivity|constructor]|].
    set (m := x :: l) in *. change (blocks_fuel (S f) r m) with ((firstn r m ++ repeat 0 (r - length m)) :: blocks_fuel f r (skipn r m)).
    assert (Lm : (0 < length m)%nat) by (unfold m; cbn; lia).
    destruct (le_lt_dec r (length m)) as [G|G].
    + destruct (IH (skipn r m)) as (k & K1 & K2 & K3 & K4); [rewrite skipn_length; lia|]. exists k. split; [exact K1|].
      rewrite skipn_length in K2. split; [|split].
      * replace (length m + k)%nat with (length m - r + k + 1 * r)%nat by lia. rewrite Nat.mod_add by lia. exact K2.
      * cbn [concat]. rewrite K3. replace (r - length m)%nat with 0%nat by lia. cbn [repeat]. rewrite app_nil_r, app_assoc, firstn_skipn. reflexivity.
      * constructor; [|exact K4]. rewrite app_length, repeat_length, firstn_length. lia.
    + exists (r - length m)%nat. split; [lia|]. split; [replace (length m + (r - length m))%nat with r by lia; apply Nat.mod_same; lia|].
      rewrite skipn_all2, firstn_all2 by lia. replace (blocks_fuel f r []) with (@nil (list Z)) by (destruct f; reflexivity).
      cbn [concat]. rewrite app_nil_r. split; [reflexivity|]. constructor; [|constructor]. rewrite app_length, repeat_length. lia.
Qed.

Lemma concat_blocks_inj r : (0 < r)%nat -> forall b1 b2 : list (list Z), Forall (fun b => length b = r) b1 -> Forall (fun b => length b = r) b2 ->
  concat b1 = concat b2 -> b1 = b2.
Proof.
  intro R. induction b1 as [|x b1 IH]; intros [|y b2] F1 F2 E; [reflexivity| | |].
  - inversion F2; subst. cbn in E. symmetry in E. apply app_eq_nil in E. destruct E as [-> _]. cbn in R. lia.
  - inversion F1; subst. cbn in E. apply app_eq_nil in E. destruct E as [-> _]. cbn in R. lia.
  - inversion F1 as [|? ? X1 X2]; inversion F2 as [|? ? Y1 Y2]; subst. cbn [concat] in E.
    assert (E1 : x = y).
    { apply (f_equal (firstn (length x))) in E. rewrite !firstn_app, Nat.sub_diag, firstn_all, Y1, Nat.sub_diag, <- Y1, firstn_all, !firstn_O, !app_nil_r in E. exact E. }
    subst y. f_equal. apply IH; try assumption. exact (app_inv_head _ _ _ E).
Qed.

(** The number of zeros that fill the last block. *)
Lemma fill_unique r n k k' : (0 < r)%nat -> (k < r)%nat -> (k' < r)%nat -> ((n + k) mod r = 0)%nat -> ((n + k') mod r = 0)%nat -> k = k'.
Proof.
  intros R K K' E E'. apply Nat.mod_divide in E; [|lia]. apply Nat.mod_divide in E'; [|lia]. destruct E as [a Ea], E' as [b Eb].
  assert (a = b) by nia. subst. lia.
Qed.

(** ** C114 *)
(** Two inputs absorb the same blocks exactly when filling their last blocks with zeros makes them equal. *)
Theorem C114_confused_exactly : forall r l1 l2, (0 < r)%nat ->
  (padded_blocks r l1 = padded_blocks r l2 <->
   exists k1 k2, (k1 < r)%nat /\ (k2 < r)%nat /\ ((length l1 + k1) mod r = 0)%nat /\ ((length l2 + k2) mod r = 0)%nat /\
     l1 ++ repeat 0 k1 = l2 ++ repeat 0 k2).
Proof.
  intros r l1 l2 R. unfold padded_blocks.
  destruct (blocks_concat r R (length l1) l1 (le_n _)) as (k1 & K1 & M1 & C1 & F1).
  destruct (blocks_concat r R (length l2) l2 (le_n _)) as (k2 & K2 & M2 & C2 & F2). split.
  - intro E. exists k1, k2. repeat (split; [assumption|]). rewrite <- C1, <- C2, E. reflexivity.
  - intros (j1 & j2 & J1 & J2 & N1 & N2 & E). rewrite (fill_unique r _ j1 k1 R J1 K1 N1 M1), (fill_unique r _ j2 k2 R J2 K2 N2 M2) in E.
    apply (concat_blocks_inj r R); [exact F1|exact F2|]. rewrite C1, C2. exact E.
Qed.
Print Assumptions C114_confused_exactly.

(** With a one after the message no two messages are confused, whatever their lengths. *)
Lemma marked_inj l1 : forall l2 k1 k2, (l1 ++ [1]) ++ repeat 0 k1 = (l2 ++ [1]) ++ repeat 0 k2 -> l1 = l2.
Proof.
  assert (Z0 : forall k (l : list Z) j, repeat 0 k = (l ++ [1]) ++ repeat 0 j -> False).
  { intros k l j E. assert (I : In 1 (repeat 0 k)) by (rewrite E, !in_app_iff; left; right; left; reflexivity). apply repeat_spec in I. discriminate. }
  induction l1 as [|x l1 IH]; intros [|y l2] k1 k2 E; cbn [app] in E.
  - reflexivity.
  - injection E as <- E. exfalso. eapply Z0. exact E.
  - injection E as -> E. exfalso. symmetry in E. eapply Z0. exact E.
  - injection E as <- E. f_equal. eapply IH. exact E.
Qed.

Theorem C114_marked_injective : forall r l1 l2, (0 < r)%nat -> padded_blocks r (l1 ++ [1]) = padded_blocks r (l2 ++ [1]) -> l1 = l2.
Proof.
  intros r l1 l2 R E. apply (C114_confused_exactly r _ _ R) in E. destruct E as (k1 & k2 & _ & _ & _ & _ & E). exact (marked_inj l1 l2 k1 k2 E).
Qed.
Print Assumptions C114_marked_injective.

(** The circuit: its outputs are those of the sponge on the marked message, in every satisfying assignment and in honest
    execution. *)
Theorem C114_marked : forall (F : Field), prime order -> forall s p inputs n,
  (computesl (mp_permute (sp_perm s)) (bitrate s + capacity s) p ->
   sound_call (sponge_marked s inputs n) (fun w res =>
     length res = n /\ map (ev w) res = sponge_fun p (bitrate s) (capacity s) (map (ev w) inputs ++ [1]) n)) /\
  (completesl (mp_permute (sp_perm s)) (bitrate s + capacity s) p -> (0 < bitrate s)%nat ->
   (forall l, length l = (bitrate s + capacity s)%nat -> length (p l) = (bitrate s + capacity s)%nat) ->
   forall vals, good_inputs vals -> on_inputs_all vals inputs ->
   runs vals (sponge_marked s inputs n) (fun res v =>
     omap (e_evaluate v) res = Ok (sponge_fun p (bitrate s) (capacity s) (map (wv vals) inputs ++ [1]) n))).
Proof.
  intros F Hp s p inputs n. split.
  - intros H b res b' w E Hw S. destruct (C47_value F Hp s p (inputs ++ [e_one]) n H b res b' w E Hw S) as [L V].
    split; [exact L|]. rewrite map_app in V. cbn [map] in V. rewrite (ev_one (prime_ge2 Hp)) in V by apply Hw. exact V.
  - intros H R Hl vals Hv Hi. apply (to_runsl Hp); [exact Hv|]. apply comp_hon. intros G _ _.
    apply (cmpl_sponge Hp s); [exact Hl|exact R|exact H|]. apply Forall2_app; [apply hasl_input, Hi|]. constructor; [apply (has_one Hp), G|constructor].
Qed.
Print Assumptions C114_marked.

(** The message [5; 6; 7] and the same with a zero appended: equal outputs from the library (C47), different ones when
    the messages are marked. *)
Example C114_example : let F : Field := F97 in
  let p := mkPoseidon 3 2 3 Exponentiation5 [[2; 1; 1]; [1; 2; 1]; [1; 1; 3]] in let s := mkSponge (poseidon_mp p) 2 1 in
  padded_blocks 2 [5; 6; 7] = padded_blocks 2 [5; 6; 7; 0] /\ padded_blocks 2 [5; 6; 7; 1] <> padded_blocks 2 [5; 6; 7; 0; 1] /\
  demo [5; 6; 7] (sponge_marked s [e_wire 1; e_wire 2; e_wire 3] 2) (fun r => r) <>
  demo [5; 6; 7] (sponge_marked s [e_wire 1; e_wire 2; e_wire 3; e_zero] 2) (fun r => r) /\
  match demo [5; 6; 7] (sponge_marked s [e_wire 1; e_wire 2; e_wire 3] 2) (fun r => r) with Ok (true, _) => True | _ => False end.
Proof. intros F p s. split; [reflexivity|]. split; [discriminate|]. split; [vm_compute; discriminate|vm_compute; exact I]. Qed.
