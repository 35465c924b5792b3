(** Poseidon over the matrix product, with any S-box.

    C116 and C117 leave out the inverse S-box of poseidon.rs 119-125, whose value at zero is not constrained (C55).  Here
    the rounds take the S-box as an argument.  With the inverse checked by a client (C109) they are sound for it too. *)
From Coq Require Import ZArith List Bool Arith Lia Znumtheory.
From Verif Require Import Base FieldM FieldP ExprM BuilderM GadgetsM CryptoM Spec SpecCrypto SpecCurve ExprP BitsP MonoP LocalP
  SoundP CmpP GadgetSoundP HonestP ExecP CoreP CompleteP CmpCompleteP GadgetCompleteP PropLib CryptoP SpongeP MatrixP EdwardsP Demo
  PropsCrypto PropsMix PropsChecked PropsDiffuse PropsUndo.
Import ListNotations.
Open Scope Z_scope.
Local Notation wv vals := (ev (input_witness vals)).

(** poseidon.rs 133-158 and 160-187, with the matrix product, the S-box and its inverse as arguments; [pos_sbox] is not used *)
Definition spn_permute {F : Field} (sb : expr -> B expr) (p : poseidon) (inputs : list expr) : B (list expr) :=
  blift (oassert (length inputs =? pos_width p)%nat) ;;
  blift (oassert (pos_full p mod 2 =? 0)%nat) ;;
  bfold (fun current round =>
      subbed <- (if poseidon_full_round p round then bmap sb current else update_first sb current) ;;
      bret (true_mul (pos_mds p) subbed))
    (seq 0 (pos_full p + pos_partial p)) inputs.
Definition spn_inverse {F : Field} (sb : expr -> B expr) (p : poseidon) (inv : list (list Z)) (outputs : list expr) : B (list expr) :=
  blift (oassert (length outputs =? pos_width p)%nat) ;;
  blift (oassert (pos_full p mod 2 =? 0)%nat) ;;
  bfold (fun current round =>
      let mixed := true_mul inv current in
      if poseidon_full_round p round then bmap sb mixed else update_first sb mixed)
    (seq 0 (pos_full p + pos_partial p)) outputs.

(** the inverse, with zero for zero *)
Definition inverts {F : Field} (iv : Z -> Z) : Prop :=
  forall a, 0 <= a < order -> 0 <= iv a < order /\ (a = 0 -> iv a = 0) /\ (a <> 0 -> (a * iv a) mod order = 1).

Section Spn.
Context {F : Field} (Hp : prime order).
Let Hord : 2 <= order := prime_ge2 Hp.

Lemma mono_spn sb p xs : (forall x, mono (sb x)) -> mono (spn_permute sb p xs).
Proof using.
  intro M. unfold spn_permute. apply mono_bind; [apply mono_lift|intro]. apply mono_bind; [apply mono_lift|intro]. apply mono_bfold. intros.
  apply mono_bind; [|intro; apply mono_ret]. destruct (poseidon_full_round _ _); [apply mono_bmap|apply mono_update_first]; exact M.
Qed.
Lemma mono_spn_inverse sb p inv xs : (forall x, mono (sb x)) -> mono (spn_inverse sb p inv xs).
Proof using.
  intro M. unfold spn_inverse. apply mono_bind; [apply mono_lift|intro]. apply mono_bind; [apply mono_lift|intro]. apply mono_bfold. intros.
  cbv zeta. destruct (poseidon_full_round _ _); [apply mono_bmap|apply mono_update_first]; exact M.
Qed.

Lemma snd_spn sb p f w xs : wf_witness w -> computes1 sb f ->
  sound w (spn_permute sb p xs) (fun r => length xs = pos_width p /\ (pos_full p mod 2 = 0)%nat /\
    map (ev w) r = mixing_fun f (pos_full p) (pos_partial p) (pos_mds p) (map (ev w) xs)).
Proof using Hp.
  intros Hw Hf. pose proof (proj1 Hf) as M. unfold spn_permute, mixing_fun.
  destruct (Nat.eqb_spec (length xs) (pos_width p)) as [Lx|]; [|intros b a b' E; discriminate].
  destruct (Nat.eqb_spec (pos_full p mod 2) 0) as [Ev|]; [|intros b a b' E; discriminate].
  assert (MR : forall cur r, mono (subbed <- (if poseidon_full_round p r then bmap sb cur else update_first sb cur) ;; bret (true_mul (pos_mds p) subbed))).
  { intros. apply mono_bind; [|intro; apply mono_ret]. destruct (poseidon_full_round _ _); [apply mono_bmap|apply mono_update_first]; exact M. }
  eapply sound_bind with (Q := fun _ => True); [apply sound_true|intro; apply mono_bind; [apply mono_lift|intro; apply mono_bfold; intros; apply MR]|].
  intros _ _. eapply sound_bind with (Q := fun _ => True); [apply sound_true|intro; apply mono_bfold; intros; apply MR|].
  intros _ _. eapply sound_weaken; [|intros r E; split; [exact Lx|split; [exact Ev|exact E]]]. clear Lx.
  generalize (seq 0 (pos_full p + pos_partial p)) as rs. intro rs. revert xs. induction rs as [|r rs IH]; intro xs; cbn [bfold fold_left].
  - apply sound_ret. reflexivity.
  - eapply sound_bind with (Q := fun ys => map (ev w) ys = mixing_round f (pos_full p) (pos_partial p) (pos_mds p) r (map (ev w) xs)).
    + rewrite (full_round_eq p r Ev). unfold mixing_round.
      eapply sound_bind with (Q := fun ys => map (ev w) ys = if full_round (pos_full p) (pos_partial p) r then map f (map (ev w) xs) else on_first f (map (ev w) xs)); [|intro; apply mono_ret|].
      * destruct (full_round (pos_full p) (pos_partial p) r); [apply sound_bmap_ev|apply sound_first_ev]; try exact M; intro; apply computes1_snd; auto.
      * cbv beta. intros ys E. apply sound_ret. rewrite (ev_true_mul Hp), E. reflexivity.
    + intro. apply mono_bfold. intros. apply MR.
    + cbv beta. intros ys E. eapply sound_weaken; [apply IH|]. cbv beta. intros zs ->. rewrite E. reflexivity.
Qed.

Lemma cmpl_spn D P s sb p f xs l : completes1 sb f -> (pos_full p mod 2 = 0)%nat ->
  length xs = pos_width p -> (0 < pos_width p)%nat -> (0 < length (pos_mds p))%nat -> hasl s xs l ->
  comp D P s (spn_permute sb p xs) (done P (fun r s' => hasl s' r (mixing_fun f (pos_full p) (pos_partial p) (pos_mds p) l))).
Proof using Hp.
  intros Hf Ev Lx W M Hl. unfold spn_permute, mixing_fun. rewrite Lx, Nat.eqb_refl, Ev.
  eapply comp_liftb; [reflexivity|]. eapply comp_liftb; [reflexivity|].
  assert (L0 : (0 < length l)%nat) by (rewrite <- (hasl_length _ _ _ Hl); lia). clear Lx W.
  generalize (seq 0 (pos_full p + pos_partial p)) as rs. intro rs. revert s xs l Hl L0. induction rs as [|r rs IH]; intros s xs l Hl L0; cbn [bfold fold_left].
  - apply comp_ret. split; [reflexivity|exact Hl].
  - rewrite (full_round_eq p r Ev).
    eapply comp_bind with (Q := done P (fun ys s' => hasl s' ys (mixing_round f (pos_full p) (pos_partial p) (pos_mds p) r l))).
    + unfold mixing_round. set (l1 := if full_round (pos_full p) (pos_partial p) r then map f l else on_first f l).
      eapply comp_bind with (Q := done P (fun ys s' => hasl s' ys l1)).
      * unfold l1. destruct (full_round (pos_full p) (pos_partial p) r); [apply comp_bmap_has; auto|].
        destruct Hl as [|x a xs l Hx Hl]; [cbn in L0; lia|]. cbn [update_first on_first].
        eapply comp_bind; [apply Hf; exact Hx|]. intros y P1 s1 X1 G1 [-> Hy]. apply comp_ret. split; [reflexivity|]. constructor; [exact Hy|]. eapply hasl_ext; eauto.
      * intros ys P1 s1 X1 G1 [-> Hy]. apply comp_ret. split; [reflexivity|]. apply (hasl_true_mul Hp). exact Hy.
    + intros ys P1 s1 X1 G1 [-> Hy]. apply IH; [exact Hy|]. unfold mixing_round. rewrite mat_vec_length. lia.
Qed.

Lemma snd_spn_inverse sb p inv h w xs : wf_witness w -> computes1 sb h ->
  sound w (spn_inverse sb p inv xs) (fun r => length xs = pos_width p /\ (pos_full p mod 2 = 0)%nat /\ map (ev w) r =
    fold_left (fun c r => unround h inv (full_round (pos_full p) (pos_partial p) r) c) (seq 0 (pos_full p + pos_partial p)) (map (ev w) xs)).
Proof using Hp.
  intros Hw Hh. unfold spn_inverse. pose proof (proj1 Hh) as M.
  assert (MR : forall cur r, mono (let mixed := true_mul inv cur in if poseidon_full_round p r then bmap sb mixed else update_first sb mixed)).
  { intros. cbv zeta. destruct (poseidon_full_round _ _); [apply mono_bmap|apply mono_update_first]; exact M. }
  destruct (Nat.eqb_spec (length xs) (pos_width p)) as [Lx|]; [|intros b a b' E; discriminate].
  destruct (Nat.eqb_spec (pos_full p mod 2) 0) as [Ev|]; [|intros b a b' E; discriminate].
  eapply sound_bind with (Q := fun _ => True); [apply sound_true|intro; apply mono_bind; [apply mono_lift|intro; apply mono_bfold; intros; apply MR]|].
  intros _ _. eapply sound_bind with (Q := fun _ => True); [apply sound_true|intro; apply mono_bfold; intros; apply MR|].
  intros _ _. eapply sound_weaken; [|intros r E; split; [exact Lx|split; [exact Ev|exact E]]]. clear Lx.
  generalize (seq 0 (pos_full p + pos_partial p)) as rs. intro rs. revert xs. induction rs as [|r rs IH]; intro xs; cbn [bfold fold_left].
  - apply sound_ret. reflexivity.
  - eapply sound_bind with (Q := fun ys => map (ev w) ys = unround h inv (full_round (pos_full p) (pos_partial p) r) (map (ev w) xs)).
    + cbv zeta. rewrite (full_round_eq p r Ev). unfold unround. rewrite <- (ev_true_mul Hp).
      destruct (full_round (pos_full p) (pos_partial p) r); [apply sound_bmap_ev|apply sound_first_ev]; try exact M; intro; apply computes1_snd; auto.
    + intro. apply mono_bfold. intros. apply MR.
    + cbv beta. intros ys E. eapply sound_weaken; [apply IH|]. cbv beta. intros zs ->. rewrite E. reflexivity.
Qed.

Lemma finvv_inverts : inverts finvv.
Proof using Hp.
  intros a Ia. split; [apply finvv_infield; [exact Hp|exact Hord]|]. split; [intros ->; reflexivity|]. intro N. apply (finvv_correct Hp); assumption.
Qed.
Lemma finvv_permutes : permutes finvv.
Proof using Hp.
  split; [intros a Ia; apply finvv_inverts, Ia|]. split.
  - intros a b Ia Ib E. rewrite <- (finvv_twice Hp a Ia), E. apply (finvv_twice Hp), Ib.
  - intros b Ib. exists (finvv b). split; [apply finvv_inverts, Ib|apply (finvv_twice Hp), Ib].
Qed.
Lemma computes1_checked : (4 <= max_bits)%nat -> computes1 checked_inverse_or_zero finvv.
Proof using Hp.
  intro H4. split; [intro x; unfold checked_inverse_or_zero; mono|]. intro x. apply to_call. intros w Hw. apply (snd_checked_inverse Hp H4 w Hw).
Qed.
End Spn.

(** ** C119 *)
(** Whatever gadget is used as S-box, if it computes f the rounds compute those of f; with a gadget for its inverse
    they are undone in every satisfying assignment. *)
Theorem C119_any_sbox : forall (F : Field), prime order -> forall sb f p, computes1 sb f ->
  let G := mixing_fun f (pos_full p) (pos_partial p) (pos_mds p) in
  (forall xs, sound_call (spn_permute sb p xs) (fun w r => map (ev w) r = G (map (ev w) xs))) /\
  (forall inv r c inputs n, sound_call (sponge_evaluate (mkSponge (mkMP (pos_width p) (spn_permute sb p) inv) r c) inputs n)
     (fun w res => length res = n /\ map (ev w) res = sponge_fun G r c (map (ev w) inputs) n)) /\
  (forall si h inv xs, computes1 si h -> (forall a, 0 <= a < order -> 0 <= f a < order /\ h (f a) = a) -> undoes (pos_width p) inv (pos_mds p) ->
     sound_call (ys <- spn_permute sb p xs ;; spn_inverse si p inv ys) (fun w r => map (ev w) r = map (ev w) xs)).
Proof.
  intros F Hp sb f p C G. pose proof (prime_ge2 Hp) as Hord.
  assert (A : forall xs, sound_call (spn_permute sb p xs) (fun w r => map (ev w) r = G (map (ev w) xs))).
  { intro xs. apply to_call. intros w Hw. eapply sound_weaken; [apply (snd_spn Hp sb p f w xs Hw C)|]. cbv beta. intros r (_ & _ & E). exact E. }
  split; [exact A|]. split.
  - intros inv r c inputs n. apply (C47_value F Hp (mkSponge (mkMP (pos_width p) (spn_permute sb p) inv) r c)).
    split; [intro; apply mono_spn, C|]. intros xs _. apply A.
  - intros si h inv xs Ch HH U. apply to_call. intros w Hw.
    eapply sound_bind; [apply (snd_spn Hp sb p f w xs Hw C)|intro; apply mono_spn_inverse, Ch|]. cbv beta. intros ys (Lx & Ev & Ey).
    eapply sound_weaken; [apply (snd_spn_inverse Hp si p inv h w ys Hw Ch)|]. cbv beta. intros r (_ & _ & Er). rewrite Er, Ey.
    apply (undo_fun Hp f h _ _ (pos_width p)); try assumption; try (intros x Hx; apply HH, Hx). rewrite <- Lx. apply (state_ev Hp).
Qed.
Print Assumptions C119_any_sbox.

(** The checked inverse as S-box: sound at zero as well, a permutation of the states if the matrix is one, and undone by
    itself with the inverse matrix. *)
Theorem C119_inverse_sbox : forall (F : Field), prime order -> (4 <= max_bits)%nat -> exists iv, inverts iv /\ permutes iv /\ forall p,
  let G := mixing_fun iv (pos_full p) (pos_partial p) (pos_mds p) in
  (forall xs, sound_call (spn_permute checked_inverse_or_zero p xs) (fun w r => map (ev w) r = G (map (ev w) xs))) /\
  (forall vals xs, (pos_full p mod 2 = 0)%nat -> (0 < pos_width p)%nat -> length (pos_mds p) = pos_width p -> length xs = pos_width p ->
     good_inputs vals -> on_inputs_all vals xs ->
     runs vals (spn_permute checked_inverse_or_zero p xs) (fun r v => omap (e_evaluate v) r = Ok (G (map (wv vals) xs)))) /\
  (forall inv xs, undoes (pos_width p) inv (pos_mds p) ->
     sound_call (ys <- spn_permute checked_inverse_or_zero p xs ;; spn_inverse checked_inverse_or_zero p inv ys) (fun w r => map (ev w) r = map (ev w) xs)) /\
  (length (pos_mds p) = pos_width p -> injective_on (pos_width p) (mat_vec (pos_mds p)) -> injective_on (pos_width p) G).
Proof.
  intros F Hp H4. pose proof (prime_ge2 Hp) as Hord. exists finvv. split; [apply (finvv_inverts Hp)|]. split; [apply (finvv_permutes Hp)|]. intros p G.
  pose proof (computes1_checked Hp H4) as C. destruct (C119_any_sbox F Hp checked_inverse_or_zero finvv p C) as (A & _ & U).
  split; [exact A|]. split; [|split].
  - intros vals xs Ev W Lm Lx Hv Hx. apply (to_runsl Hp); [exact Hv|].
    apply (cmpl_spn Hp); auto; try lia; [|apply hasl_input, Hx]. intros D P s x a Hxa. apply (cmpl_checked_inverse Hp H4), Hxa.
  - intros inv xs Un. apply (U checked_inverse_or_zero finvv inv xs C); [|exact Un]. intros a Ia. split; [apply (finvv_inverts Hp), Ia|apply (finvv_twice Hp), Ia].
  - intros Lm I. destruct (Nat.eq_dec (pos_full p + pos_partial p) 0) as [Z|Nz].
    + intros a b _ _. unfold G, mixing_fun. rewrite Z. cbn [seq fold_left]. auto.
    + rewrite <- Lm in *. apply (C116_permutation_iff F Hp finvv (pos_full p) (pos_partial p) (pos_mds p) (finvv_permutes Hp) ltac:(lia)), I.
Qed.
Print Assumptions C119_inverse_sbox.

(** The library's inverse S-box does not have this: on a zero lane every value of the S-box can be had, so the result of
    one full round of width one with the matrix [[1]] is arbitrary. *)
Theorem C119_library_zero : forall (F : Field), prime order -> 2 < order -> forall x c, 0 <= c < order ->
  sat_call (spn_permute (sbox_permute Inverse) (mkPoseidon 1 0 1 Inverse [[1]]) [x]) (fun n w => below n x /\ ev w x = 0) (fun w r => map (ev w) r = [c]).
Proof.
  intros F Hp H2 x c Ic. destruct (C55_inverse_permutation_refuted F Hp H2) as [_ S]. intros b w Wb Ww Sb Pre.
  destruct (S x c Ic b w Wb Ww Sb Pre) as (r & b' & w' & E & Wb' & Ww' & A & Sb' & R). change (permute inverse_permutation x) with (inverse_or_zero x) in E.
  exists (true_mul [[1]] [r]), b', w'. split; [|split; [exact Wb'|split; [exact Ww'|split; [exact A|split; [exact Sb'|]]]]].
  - change (spn_permute (sbox_permute Inverse) (mkPoseidon 1 0 1 Inverse [[1]]) [x] b) with
      ((l <- (subbed <- (y <- inverse_or_zero x ;; bret [y]) ;; bret (true_mul [[1]] subbed)) ;; bret l) b).
    unfold bbind. rewrite E. reflexivity.
  - rewrite (ev_true_mul Hp). cbn [map]. rewrite R. unfold mat_vec. cbn [map combine row_sum fold_right fst snd]. rewrite Z.add_0_r, Z.mul_1_l, Z.mod_small by exact Ic. reflexivity.
Qed.
Print Assumptions C119_library_zero.

Example C119_example : let F : Field := F97 in let p := mkPoseidon 2 2 1 Inverse [[2; 1]; [1; 1]] in
  (4 <= max_bits)%nat /\ undoes 2 [[1; 96]; [96; 2]] (pos_mds p) /\
  demo [0; 6] (spn_permute checked_inverse_or_zero p [e_wire 1; e_wire 2]) (fun r => r) <> Ok (true, [0; 6]) /\
  demo [0; 6] (ys <- spn_permute checked_inverse_or_zero p [e_wire 1; e_wire 2] ;; spn_inverse checked_inverse_or_zero p [[1; 96]; [96; 2]] ys) (fun r => r) = Ok (true, [0; 6]).
Proof.
  intros F p. split; [apply Nat.leb_le; vm_compute; reflexivity|]. split; [apply undoes_97|]. split; [vm_compute; discriminate|vm_compute; reflexivity].
Qed.
