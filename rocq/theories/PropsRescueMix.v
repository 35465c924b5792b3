(** Rescue over the matrix product, and its inverse.

    As for Poseidon (C116, C117): the rounds of rescue.rs 37-47 with the matrix product in place of that of matrices.rs
    (C48), over the library's S-boxes, and an inverse, which rescue.rs 49-52 leaves unimplemented. *)
From Coq Require Import ZArith List Bool Arith Lia Znumtheory.
From Verif Require Import Base FieldM FieldP ExprM BuilderM GadgetsM CryptoM Spec SpecCrypto SpecCurve ExprP BitsP MonoP LocalP
  SoundP CmpP GadgetSoundP HonestP ExecP CoreP CompleteP CmpCompleteP GadgetCompleteP PropLib CryptoP SpongeP MatrixP EdwardsP Demo
  PropsCrypto PropsMix PropsDiffuse PropsUndo.
Import ListNotations.
Open Scope Z_scope.
Local Notation wv vals := (ev (input_witness vals)).

(** rescue.rs 37-47 with the matrix product *)
Definition rescue_mix {F : Field} (q : rescue) (inputs : list expr) : B (list expr) :=
  bfold (fun current (_ : nat) =>
      c1 <- bmap (rescue_pi1 q) current ;;
      c2 <- bmap (rescue_pi2 q) (true_mul (res_mds q) c1) ;;
      bret (true_mul (res_mds q) c2))
    (seq 0 (res_rounds q)) inputs.
(** the same backwards: each S-box is the inverse of the other *)
Definition rescue_unmix {F : Field} (q : rescue) (inv : list (list Z)) (outputs : list expr) : B (list expr) :=
  bfold (fun current (_ : nat) =>
      c1 <- bmap (rescue_pi1 q) (true_mul inv current) ;;
      bmap (rescue_pi2 q) (true_mul inv c1))
    (seq 0 (res_rounds q)) outputs.

(** one round on values, [f] the power and [g] the root; and [k] rounds *)
Definition rround_mix {F : Field} (f g : Z -> Z) (mds : list (list Z)) (l : list Z) : list Z := mat_vec mds (map g (mat_vec mds (map f l))).
Definition unround_mix {F : Field} (f g : Z -> Z) (inv : list (list Z)) (l : list Z) : list Z := map g (mat_vec inv (map f (mat_vec inv l))).
Fixpoint iterate {A} (k : nat) (G : A -> A) (a : A) : A := match k with O => a | S j => G (iterate j G a) end.

Lemma fold_iterate {A} (G : A -> A) k : forall s a, fold_left (fun c (_ : nat) => G c) (seq s k) a = iterate k G a.
Proof.
  assert (I : forall k a, iterate k G (G a) = G (iterate k G a)) by (induction k0 as [|j IH]; intro a; cbn; [reflexivity|rewrite IH; reflexivity]).
  induction k as [|k IH]; intros s a; cbn [seq fold_left iterate]; [reflexivity|]. rewrite IH. apply I.
Qed.
Lemma iterate_undo {A} (ok : A -> Prop) (G H : A -> A) k : (forall a, ok a -> ok (G a)) -> (forall a, ok a -> H (G a) = a) ->
  forall a, ok a -> iterate k H (iterate k G a) = a.
Proof.
  intros C U. assert (I : forall k a, iterate k H (H a) = H (iterate k H a)) by (induction k0 as [|j IH]; intro a; cbn; [reflexivity|rewrite IH; reflexivity]).
  assert (K : forall k a, ok a -> ok (iterate k G a)) by (induction k0 as [|j IH]; intros a Ha; cbn; auto).
  induction k as [|k IH]; intros a Ha; [reflexivity|]. cbn [iterate]. rewrite <- I, U by (apply K, Ha). apply IH, Ha.
Qed.

Section Rescue.
Context {F : Field} (Hp : prime order).
Let Hord : 2 <= order := prime_ge2 Hp.

Lemma mono_rescue_mix q xs : mono (rescue_mix q xs).
Proof using.
  unfold rescue_mix. apply mono_bfold. intros. apply mono_bind; [apply mono_bmap; intro; apply mono_pi1|intro].
  apply mono_bind; [apply mono_bmap; intro; apply mono_pi2|intro; apply mono_ret].
Qed.
Lemma mono_unmix_round q inv l : mono (c1 <- bmap (rescue_pi1 q) (true_mul inv l) ;; bmap (rescue_pi2 q) (true_mul inv c1)).
Proof using. apply mono_bind; [apply mono_bmap; intro; apply mono_pi1|intro; apply mono_bmap; intro; apply mono_pi2]. Qed.
Lemma mono_rescue_unmix q inv xs : mono (rescue_unmix q inv xs).
Proof using. unfold rescue_unmix. apply mono_bfold. intros. apply mono_unmix_round. Qed.

Lemma snd_rescue_mix q w f g xs : wf_witness w -> computes1 (rescue_pi1 q) f -> computes1 (rescue_pi2 q) g ->
  sound w (rescue_mix q xs) (fun ys => map (ev w) ys = iterate (res_rounds q) (rround_mix f g (res_mds q)) (map (ev w) xs)).
Proof using Hp.
  intros Hw Hf Hg. unfold rescue_mix. rewrite <- (fold_iterate _ _ 0). generalize (seq 0 (res_rounds q)) as rs. intro rs. revert xs.
  induction rs as [|k rs IH]; intro xs; cbn [bfold fold_left].
  - apply sound_ret. reflexivity.
  - eapply sound_bind with (Q := fun ys => map (ev w) ys = rround_mix f g (res_mds q) (map (ev w) xs)).
    + eapply sound_bind; [apply sound_bmap_ev with (g := f); [intro; apply mono_pi1|intro; apply computes1_snd; auto]|intro; apply mono_bind; [apply mono_bmap; intro; apply mono_pi2|intro; apply mono_ret]|].
      cbv beta. intros c1 E1. eapply sound_bind; [apply sound_bmap_ev with (g := g); [intro; apply mono_pi2|intro; apply computes1_snd; auto]|intro; apply mono_ret|].
      cbv beta. intros c2 E2. apply sound_ret. rewrite (ev_true_mul Hp), E2, (ev_true_mul Hp), E1. reflexivity.
    + intro. apply mono_bfold. intros. apply mono_bind; [apply mono_bmap; intro; apply mono_pi1|intro].
      apply mono_bind; [apply mono_bmap; intro; apply mono_pi2|intro; apply mono_ret].
    + cbv beta. intros ys E. eapply sound_weaken; [apply IH|]. cbv beta. intros zs ->. rewrite E. reflexivity.
Qed.
Lemma snd_rescue_unmix q inv w f g xs : wf_witness w -> computes1 (rescue_pi1 q) f -> computes1 (rescue_pi2 q) g ->
  sound w (rescue_unmix q inv xs) (fun ys => map (ev w) ys = iterate (res_rounds q) (unround_mix f g inv) (map (ev w) xs)).
Proof using Hp.
  intros Hw Hf Hg. unfold rescue_unmix. rewrite <- (fold_iterate _ _ 0). generalize (seq 0 (res_rounds q)) as rs. intro rs. revert xs.
  induction rs as [|k rs IH]; intro xs; cbn [bfold fold_left].
  - apply sound_ret. reflexivity.
  - eapply sound_bind with (Q := fun ys => map (ev w) ys = unround_mix f g inv (map (ev w) xs)).
    + eapply sound_bind; [apply sound_bmap_ev with (g := f); [intro; apply mono_pi1|intro; apply computes1_snd; auto]|intro; apply mono_bmap; intro; apply mono_pi2|].
      cbv beta. intros c1 E1. eapply sound_weaken; [apply sound_bmap_ev with (g := g); [intro; apply mono_pi2|intro; apply computes1_snd; auto]|].
      cbv beta. intros c2 E2. rewrite E2, (ev_true_mul Hp), E1, (ev_true_mul Hp). reflexivity.
    + intro. apply mono_bfold. intros. apply mono_unmix_round.
    + cbv beta. intros ys E. eapply sound_weaken; [apply IH|]. cbv beta. intros zs ->. rewrite E. reflexivity.
Qed.
Lemma cmpl_rescue_mix D P q f g : completes1 (rescue_pi1 q) f -> completes1 (rescue_pi2 q) g -> forall s xs l, hasl s xs l ->
  comp D P s (rescue_mix q xs) (done P (fun ys s' => hasl s' ys (iterate (res_rounds q) (rround_mix f g (res_mds q)) l))).
Proof using Hp.
  intros Hf Hg s xs l. unfold rescue_mix. rewrite <- (fold_iterate _ _ 0). generalize (seq 0 (res_rounds q)) as rs. intro rs. revert s xs l.
  induction rs as [|k rs IH]; intros s xs l Hl; cbn [bfold fold_left].
  - apply comp_ret. split; [reflexivity|exact Hl].
  - eapply comp_bind with (Q := done P (fun ys s' => hasl s' ys (rround_mix f g (res_mds q) l))).
    + eapply comp_bind; [apply comp_bmap_has; [exact Hf|exact Hl]|]. intros c1 P1 s1 X1 G1 [-> H1].
      eapply comp_bind; [apply comp_bmap_has; [exact Hg|apply (hasl_true_mul Hp); exact H1]|]. intros c2 P2 s2 X2 G2 [-> H2].
      apply comp_ret. split; [reflexivity|]. apply (hasl_true_mul Hp). exact H2.
    + intros ys P1 s1 X1 G1 [-> Hy]. apply IH. exact Hy.
Qed.
Lemma cmpl_rescue_unmix D P q inv f g : completes1 (rescue_pi1 q) f -> completes1 (rescue_pi2 q) g -> forall s xs l, hasl s xs l ->
  comp D P s (rescue_unmix q inv xs) (done P (fun ys s' => hasl s' ys (iterate (res_rounds q) (unround_mix f g inv) l))).
Proof using Hp.
  intros Hf Hg s xs l. unfold rescue_unmix. rewrite <- (fold_iterate _ _ 0). generalize (seq 0 (res_rounds q)) as rs. intro rs. revert s xs l.
  induction rs as [|k rs IH]; intros s xs l Hl; cbn [bfold fold_left].
  - apply comp_ret. split; [reflexivity|exact Hl].
  - eapply comp_bind with (Q := done P (fun ys s' => hasl s' ys (unround_mix f g inv l))).
    + eapply comp_bind; [apply comp_bmap_has; [exact Hf|apply (hasl_true_mul Hp); exact Hl]|]. intros c1 P1 s1 X1 G1 [-> H1].
      apply comp_bmap_has; [exact Hg|apply (hasl_true_mul Hp); exact H1].
    + intros ys P1 s1 X1 G1 [-> Hy]. apply IH. exact Hy.
Qed.

Section Fun.
Context (f g : Z -> Z) (n : nat) (M N : list (list Z)).
Context (Cf : forall x, 0 <= x < order -> 0 <= f x < order) (Cg : forall x, 0 <= x < order -> 0 <= g x < order).
Context (Gf : forall x, 0 <= x < order -> g (f x) = x) (Fg : forall x, 0 <= x < order -> f (g x) = x).
Lemma mv_closed K : length K = n -> closed n (mat_vec K).
Proof using Hp. intros <-. apply (mat_vec_closed Hp). Qed.
Lemma rround_mix_closed : length M = n -> closed n (rround_mix f g M).
Proof using Hp Cf Cg. intros L l Hl. unfold rround_mix. repeat (apply mv_closed; [exact L|]; apply map_closed; [assumption|]). exact Hl. Qed.
Lemma unround_mix_closed : length N = n -> closed n (unround_mix f g N).
Proof using Hp Cf Cg. intros L l Hl. unfold unround_mix. repeat (apply map_closed; [assumption|]; apply mv_closed; [exact L|]). exact Hl. Qed.
Lemma unmix_mix : undoes n N M -> forall l, state n l -> unround_mix f g N (rround_mix f g M l) = l.
Proof using Hp Cf Cg Gf Fg.
  intros (LM & LN & U) l Hl. unfold unround_mix, rround_mix.
  pose proof (map_closed f n Cf l Hl) as S1. pose proof (mv_closed M LM _ S1) as S2. pose proof (map_closed g n Cg _ S2) as S3.
  rewrite (U _ S3), (map_undo g f n _ Fg S2), (U _ S1). apply (map_undo f g n); assumption.
Qed.
Lemma mix_unmix : undoes n M N -> forall l, state n l -> rround_mix f g M (unround_mix f g N l) = l.
Proof using Hp Cf Cg Gf Fg.
  intros (LN & LM & U) l Hl. unfold unround_mix, rround_mix.
  pose proof (mv_closed N LN _ Hl) as S1. pose proof (map_closed f n Cf _ S1) as S2. pose proof (mv_closed N LN _ S2) as S3.
  rewrite (map_undo g f n _ Fg S3), (U _ S2), (map_undo f g n _ Gf S1). apply U, Hl.
Qed.
End Fun.
End Rescue.

Definition power_root {F : Field} (q : rescue) (g : Z -> Z) : Prop :=
  forall a, 0 <= a < order -> 0 <= g a < order /\ g ((a ^ res_alpha q) mod order) = a /\ (g a ^ res_alpha q) mod order = a.

(** ** C118 *)
(** The circuit computes its rounds, in every satisfying assignment and honestly; the library's sponge over it computes
    the sponge function. *)
Theorem C118_value : forall (F : Field), prime order -> forall q, 2 <= res_alpha q < order -> Z.gcd (order - 1) (res_alpha q) = 1 ->
  exists g, power_root q g /\ let G := iterate (res_rounds q) (rround_mix (fun a => (a ^ res_alpha q) mod order) g (res_mds q)) in
  (forall xs, sound_call (rescue_mix q xs) (fun w ys => map (ev w) ys = G (map (ev w) xs))) /\
  (forall vals xs, good_inputs vals -> on_inputs_all vals xs ->
     runs vals (rescue_mix q xs) (fun ys v => omap (e_evaluate v) ys = Ok (G (map (wv vals) xs)))) /\
  (forall inv r c inputs n, sound_call (sponge_evaluate (mkSponge (mkMP (res_width q) (rescue_mix q) inv) r c) inputs n) (fun w res =>
     length res = n /\ map (ev w) res = sponge_fun G r c (map (ev w) inputs) n)).
Proof.
  intros F Hp q Ha Hg. destruct (rescue_sboxes Hp q Ha Hg) as (g & R & C1 & C2 & C3 & C4). exists g. split; [intros a I; apply R, I|]. intro G.
  assert (A : forall xs, sound_call (rescue_mix q xs) (fun w ys => map (ev w) ys = G (map (ev w) xs))).
  { intro xs. apply to_call. intros w Hw. apply (snd_rescue_mix Hp); assumption. }
  split; [exact A|]. split.
  - intros vals xs Hv Hx. apply (to_runsl Hp); [exact Hv|]. apply (cmpl_rescue_mix Hp); [exact C3|exact C4|apply hasl_input, Hx].
  - intros inv r c inputs n. apply (C47_value F Hp (mkSponge (mkMP (res_width q) (rescue_mix q) inv) r c)).
    split; [intro; apply mono_rescue_mix|]. intros xs _. apply A.
Qed.
Print Assumptions C118_value.

(** With a two-sided inverse of the matrix, undoing after doing and doing after undoing give back the state, in every
    satisfying assignment; and the inverse can be executed on every state. *)
Theorem C118_round_trip : forall (F : Field), prime order -> forall q inv, 2 <= res_alpha q < order -> Z.gcd (order - 1) (res_alpha q) = 1 ->
  forall xs, undoes (length xs) inv (res_mds q) -> undoes (length xs) (res_mds q) inv ->
  sound_call (ys <- rescue_mix q xs ;; rescue_unmix q inv ys) (fun w r => map (ev w) r = map (ev w) xs) /\
  sound_call (ys <- rescue_unmix q inv xs ;; rescue_mix q ys) (fun w r => map (ev w) r = map (ev w) xs) /\
  (forall vals, good_inputs vals -> on_inputs_all vals xs ->
     runs vals (ys <- rescue_unmix q inv xs ;; rescue_mix q ys) (fun r v => omap (e_evaluate v) r = Ok (map (wv vals) xs))).
Proof.
  intros F Hp q inv Ha Hg xs U1 U2. pose proof (prime_ge2 Hp) as Hord. destruct (rescue_sboxes Hp q Ha Hg) as (g & R & C1 & C2 & C3 & C4).
  set (f := fun a => (a ^ res_alpha q) mod order) in *.
  assert (Cf : forall x, 0 <= x < order -> 0 <= f x < order) by (intros x _; apply Z.mod_pos_bound; lia).
  assert (Cg : forall x, 0 <= x < order -> 0 <= g x < order) by (intros x I; apply R, I).
  assert (Gf : forall x, 0 <= x < order -> g (f x) = x) by (intros x I; apply R, I).
  assert (Fg : forall x, 0 <= x < order -> f (g x) = x) by (intros x I; apply R, I).
  pose proof U1 as (LM & LN & _).
  assert (DU : forall l, state (length xs) l -> iterate (res_rounds q) (unround_mix f g inv) (iterate (res_rounds q) (rround_mix f g (res_mds q)) l) = l).
  { intros l Hl. apply (iterate_undo (state (length xs))); [| |exact Hl].
    - apply (rround_mix_closed Hp f g (length xs) (res_mds q) Cf Cg LM).
    - apply (unmix_mix Hp f g (length xs) (res_mds q) inv Cf Cg Gf Fg U1). }
  assert (UD : forall l, state (length xs) l -> iterate (res_rounds q) (rround_mix f g (res_mds q)) (iterate (res_rounds q) (unround_mix f g inv) l) = l).
  { intros l Hl. apply (iterate_undo (state (length xs))); [| |exact Hl].
    - apply (unround_mix_closed Hp f g (length xs) inv Cf Cg LN).
    - apply (mix_unmix Hp f g (length xs) (res_mds q) inv Cf Cg Gf Fg U2). }
  split; [|split].
  - apply to_call. intros w Hw. eapply sound_bind; [apply (snd_rescue_mix Hp q w f g xs Hw C1 C2)|intro; apply mono_rescue_unmix|].
    cbv beta. intros ys Ey. eapply sound_weaken; [apply (snd_rescue_unmix Hp q inv w f g ys Hw C1 C2)|]. cbv beta. intros r Er. rewrite Er, Ey. apply DU, (state_ev Hp).
  - apply to_call. intros w Hw. eapply sound_bind; [apply (snd_rescue_unmix Hp q inv w f g xs Hw C1 C2)|intro; apply mono_rescue_mix|].
    cbv beta. intros ys Ey. eapply sound_weaken; [apply (snd_rescue_mix Hp q w f g ys Hw C1 C2)|]. cbv beta. intros r Er. rewrite Er, Ey. apply UD, (state_ev Hp).
  - intros vals Hv Hx. apply (to_runsl Hp); [exact Hv|].
    eapply comp_bind; [apply (cmpl_rescue_unmix Hp _ _ q inv f g C3 C4); apply hasl_input, Hx|]. intros ys P1 s1 X1 G1 [-> Hy].
    eapply comp_weaken; [apply (cmpl_rescue_mix Hp _ _ q f g C3 C4 _ _ _ Hy)|]. cbv beta. intros r P2 s2 _ _ [-> Hr]. split; [reflexivity|].
    rewrite UD in Hr by apply (state_ev Hp). exact Hr.
Qed.
Print Assumptions C118_round_trip.

(** If no entry of the matrix is zero, a change of any one lane changes every lane within half a round. *)
Theorem C118_diffusion : forall (F : Field), prime order -> forall f mds u x y v k, permutes f ->
  Forall (fun row => length row = length mds /\ Forall (fun c => c mod order <> 0) row) mds ->
  state (length mds) (u ++ x :: v) -> 0 <= y < order -> x <> y -> (k < length mds)%nat ->
  nth_error (mat_vec mds (map f (u ++ x :: v))) k <> nth_error (mat_vec mds (map f (u ++ y :: v))) k.
Proof.
  intros F Hp f mds u x y v k P Hm Hs Hy N Hk. exact (C116_diffusion F Hp f 2 0 mds 0 u x y v k P Hm Hs Hy N Hk).
Qed.
Print Assumptions C118_diffusion.

Example C118_example : let F : Field := F97 in let q := mkRescue 2 5 2 [[2; 1]; [1; 1]] in
  2 <= res_alpha q < order /\ Z.gcd (order - 1) (res_alpha q) = 1 /\ undoes 2 [[1; 96]; [96; 2]] (res_mds q) /\ undoes 2 (res_mds q) [[1; 96]; [96; 2]] /\
  demo [5; 6] (rescue_mix q [e_wire 1; e_wire 2]) (fun r => r) <> demo [5; 6] (rescue_permute q [e_wire 1; e_wire 2]) (fun r => r) /\
  demo [5; 6] (ys <- rescue_mix q [e_wire 1; e_wire 2] ;; rescue_unmix q [[1; 96]; [96; 2]] ys) (fun r => r) = Ok (true, [5; 6]).
Proof.
  intros F q. split; [vm_compute; split; [discriminate|reflexivity]|]. split; [reflexivity|]. split; [apply undoes_97|]. split; [apply undoes_97|].
  split; [vm_compute; discriminate|vm_compute; reflexivity].
Qed.
