(** The inverse of Poseidon over the matrix product.

    [Poseidon::inverse] (poseidon.rs 160-187) panics because the inverse of the matrix is not implemented (C49).  With
    the inverse matrix supplied, and the matrix product in place of that of matrices.rs (C48), its loop is right: the
    rounds may be numbered forwards, as they are there, because full rounds are placed symmetrically. *)
From Coq Require Import ZArith List Bool Arith Lia Znumtheory.
From Verif Require Import Base FieldM FieldP ExprM BuilderM GadgetsM CryptoM Spec SpecCrypto SpecCurve ExprP BitsP MonoP LocalP
  SoundP CmpP GadgetSoundP HonestP ExecP CoreP CompleteP CmpCompleteP GadgetCompleteP PropLib CryptoP SpongeP MatrixP EdwardsP Demo
  PropsCrypto PropsMix PropsDiffuse.
Import ListNotations.
Open Scope Z_scope.
Local Notation wv vals := (ev (input_witness vals)).

(** poseidon.rs 160-187 with the inverse matrix as an argument and the matrix product *)
Definition mixing_inverse {F : Field} (p : poseidon) (inv : list (list Z)) (outputs : list expr) : B (list expr) :=
  blift (oassert (length outputs =? pos_width p)%nat) ;;
  blift (oassert (pos_full p mod 2 =? 0)%nat) ;;
  bfold (fun current round =>
      let mixed := true_mul inv current in
      if poseidon_full_round p round then bmap (sbox_inverse (pos_sbox p)) mixed
      else update_first (sbox_inverse (pos_sbox p)) mixed)
    (seq 0 (pos_full p + pos_partial p)) outputs.

(** [N] undoes [M] on the states of width [n]. *)
Definition undoes {F : Field} (n : nat) (N M : list (list Z)) : Prop :=
  length M = n /\ length N = n /\ forall v, state n v -> mat_vec N (mat_vec M v) = v.

Definition unround {F : Field} (h : Z -> Z) (inv : list (list Z)) (b : bool) (l : list Z) : list Z :=
  if b then map h (mat_vec inv l) else on_first h (mat_vec inv l).
Definition mround {F : Field} (f : Z -> Z) (mds : list (list Z)) (b : bool) (l : list Z) : list Z :=
  mat_vec mds (if b then map f l else on_first f l).

(** full rounds are placed symmetrically *)
Lemma full_round_sym full part r : (full mod 2 = 0)%nat -> (r < full + part)%nat ->
  full_round full part (full + part - 1 - r) = full_round full part r.
Proof.
  intros E L. unfold full_round. pose proof (Nat.div_mod full 2 ltac:(lia)) as D. rewrite E in D. set (h := (full / 2)%nat) in *.
  apply eq_true_iff_eq. rewrite !orb_true_iff, !Nat.ltb_lt, !Nat.leb_le. lia.
Qed.
Lemma rounds_rev full part : (full mod 2 = 0)%nat ->
  rev (map (full_round full part) (seq 0 (full + part))) = map (full_round full part) (seq 0 (full + part)).
Proof.
  intro E. set (R := (full + part)%nat). apply (nth_ext _ _ false false); [rewrite rev_length; reflexivity|].
  intros i Hi. rewrite rev_length, map_length, seq_length in Hi.
  rewrite rev_nth by (rewrite map_length, seq_length; exact Hi). rewrite map_length, seq_length.
  rewrite (nth_indep _ false (full_round full part 0)) by (rewrite map_length, seq_length; lia). rewrite map_nth, seq_nth by lia.
  rewrite (nth_indep _ false (full_round full part 0)) by (rewrite map_length, seq_length; lia). rewrite map_nth, seq_nth by lia.
  cbn [Nat.add]. replace (R - S i)%nat with (full + part - 1 - i)%nat by (unfold R; lia). apply full_round_sym; assumption.
Qed.

Lemma fold_map {A C S} (g : S -> C -> S) (q : A -> C) l : forall s, fold_left (fun s a => g s (q a)) l s = fold_left g (map q l) s.
Proof. induction l as [|a l IH]; intro s; cbn; [reflexivity|apply IH]. Qed.

Section Undo.
Context {F : Field} (Hp : prime order).
Let Hord : 2 <= order := prime_ge2 Hp.

Lemma fold_undo (G H : bool -> list Z -> list Z) n bs : (forall b, closed n (G b)) -> (forall b a, state n a -> H b (G b a) = a) ->
  forall a, state n a -> fold_left (fun c b => H b c) (rev bs) (fold_left (fun c b => G b c) bs a) = a.
Proof using.
  intros C U. induction bs as [|b bs IH]; intros a Ha; cbn [rev fold_left]; [reflexivity|].
  rewrite fold_left_app. cbn [fold_left]. rewrite IH by apply C, Ha. apply U, Ha.
Qed.

Lemma map_undo (f h : Z -> Z) n (a : list Z) : (forall x, 0 <= x < order -> h (f x) = x) -> state n a -> map h (map f a) = a.
Proof using. intros U [_ R]. rewrite map_map. rewrite <- (map_id a) at 2. apply map_ext_in. intros x Hx. apply U. rewrite Forall_forall in R. apply R, Hx. Qed.
Lemma first_undo (f h : Z -> Z) n (a : list Z) : (forall x, 0 <= x < order -> h (f x) = x) -> state n a -> on_first h (on_first f a) = a.
Proof using. intros U [_ R]. destruct a as [|x a]; [reflexivity|]. cbn. rewrite U; [reflexivity|]. inversion R; assumption. Qed.

Lemma undo_fun f h full part n M N : (full mod 2 = 0)%nat -> undoes n N M -> (forall x, 0 <= x < order -> 0 <= f x < order) ->
  (forall x, 0 <= x < order -> h (f x) = x) -> forall a, state n a ->
  fold_left (fun c r => unround h N (full_round full part r) c) (seq 0 (full + part)) (mixing_fun f full part M a) = a.
Proof using Hp.
  intros E (LM & LN & U) C Hh a Ha. unfold mixing_fun.
  rewrite (fold_map (fun c b => unround h N b c)), <- (rounds_rev full part E).
  change (fun cur r => mixing_round f full part M r cur) with (fun cur r => mround f M (full_round full part r) cur).
  rewrite (fold_map (fun c b => mround f M b c)). apply (fold_undo (mround f M) (unround h N) n); [| |exact Ha].
  - intros b l Hl. unfold mround. rewrite <- LM. apply (mat_vec_closed Hp). rewrite LM. destruct b; [apply map_closed|apply first_closed]; assumption.
  - intros b l Hl. unfold mround, unround. rewrite !U by (destruct b; [apply map_closed|apply first_closed]; assumption).
    destruct b; [eapply map_undo|eapply first_undo]; eassumption.
Qed.

Lemma redo_fun f h full part n M N : (full mod 2 = 0)%nat -> undoes n M N -> (forall x, 0 <= x < order -> 0 <= h x < order) ->
  (forall x, 0 <= x < order -> f (h x) = x) -> forall a, state n a ->
  mixing_fun f full part M (fold_left (fun c r => unround h N (full_round full part r) c) (seq 0 (full + part)) a) = a.
Proof using Hp.
  intros E (LN & LM & U) C Hh a Ha. unfold mixing_fun.
  change (fun cur r => mixing_round f full part M r cur) with (fun cur r => mround f M (full_round full part r) cur).
  rewrite (fold_map (fun c b => mround f M b c)), <- (rounds_rev full part E).
  rewrite (fold_map (fun c b => unround h N b c)). apply (fold_undo (unround h N) (mround f M) n); [| |exact Ha].
  - intros b l Hl. unfold unround. assert (S1 : state n (mat_vec N l)) by (rewrite <- LN; apply (mat_vec_closed Hp); rewrite LN; exact Hl).
    destruct b; [apply map_closed|apply first_closed]; assumption.
  - intros b l Hl. unfold mround, unround. assert (S1 : state n (mat_vec N l)) by (rewrite <- LN; apply (mat_vec_closed Hp); rewrite LN; exact Hl).
    destruct b; [rewrite (map_undo h f n _ Hh S1)|rewrite (first_undo h f n _ Hh S1)]; apply U, Hl.
Qed.

(** the inverse S-boxes *)
Lemma sbox_both sb : sb <> Inverse -> sbox_available sb ->
  exists h, computes1 (sbox_inverse sb) h /\ completes1 (sbox_inverse sb) h /\
    (forall a, infield a -> infield (sbox_fun sb a) /\ infield (h a) /\ h (sbox_fun sb a) = a /\ sbox_fun sb (h a) = a).
Proof using Hp.
  intros NI A.
  assert (X : exists n, 2 <= n < order /\ Z.gcd (order - 1) n = 1 /\ (forall a, sbox_fun sb a = (a ^ n) mod order) /\
    sbox_to_permutation sb = Ok (monomial n)).
  { destruct sb; [exists 3|exists 5|contradiction]; destruct A as [L G]; (split; [lia|]); (split; [exact G|]); (split; [reflexivity|]);
      unfold sbox_to_permutation; rewrite el_from_ok by (unfold infield; lia); cbn [obind];
      rewrite (monomial_new_ok Hp) by (unfold infield; lia); rewrite G; reflexivity. }
  destruct X as (n & Hn & G & Ef & Ep). destruct (monomial_is_permutation Hp n Hn G) as (h & C1 & C2 & C3 & C4 & C5). exists h. split; [|split].
  - split.
    + intro x. unfold sbox_inverse. rewrite Ep. exact (proj1 C2 x).
    + intro x. unfold sbox_inverse. rewrite Ep. exact (proj2 C2 x).
  - intros D P s x a Hx. unfold sbox_inverse. eapply comp_liftb; [exact Ep|]. apply C4, Hx.
  - intros a Ia. rewrite !Ef. destruct (C5 a Ia) as (A1 & A2 & A3 & A4). auto.
Qed.

Lemma mono_uninv p inv current round : (forall x, mono (sbox_inverse (pos_sbox p) x)) ->
  mono (let mixed := true_mul inv current in
      if poseidon_full_round p round then bmap (sbox_inverse (pos_sbox p)) mixed
      else update_first (sbox_inverse (pos_sbox p)) mixed).
Proof using. intro M. cbv zeta. destruct (poseidon_full_round p round); [apply mono_bmap; exact M|apply mono_update_first; exact M]. Qed.

Lemma snd_uninv p inv h w xs : wf_witness w -> computes1 (sbox_inverse (pos_sbox p)) h ->
  sound w (mixing_inverse p inv xs) (fun r => length xs = pos_width p /\ (pos_full p mod 2 = 0)%nat /\ map (ev w) r =
    fold_left (fun c r => unround h inv (full_round (pos_full p) (pos_partial p) r) c) (seq 0 (pos_full p + pos_partial p)) (map (ev w) xs)).
Proof using Hp.
  intros Hw Hh. unfold mixing_inverse. pose proof (proj1 Hh) as Mh.
  destruct (Nat.eqb_spec (length xs) (pos_width p)) as [Lx|]; [|intros b a b' E; discriminate].
  destruct (Nat.eqb_spec (pos_full p mod 2) 0) as [Ev|]; [|intros b a b' E; discriminate].
  eapply sound_bind with (Q := fun _ => True); [apply sound_true|intro; apply mono_bind; [apply mono_lift|intro; apply mono_bfold; intros; apply mono_uninv, Mh]|].
  intros _ _. eapply sound_bind with (Q := fun _ => True); [apply sound_true|intro; apply mono_bfold; intros; apply mono_uninv, Mh|].
  intros _ _. eapply sound_weaken; [|intros r E; split; [exact Lx|split; [exact Ev|exact E]]]. clear Lx.
  generalize (seq 0 (pos_full p + pos_partial p)) as rs. intro rs. revert xs. induction rs as [|r rs IH]; intro xs; cbn [bfold fold_left].
  - apply sound_ret. reflexivity.
  - eapply sound_bind with (Q := fun ys => map (ev w) ys = unround h inv (full_round (pos_full p) (pos_partial p) r) (map (ev w) xs)).
    + cbv zeta. rewrite (full_round_eq p r Ev). unfold unround. rewrite <- (ev_true_mul Hp).
      destruct (full_round (pos_full p) (pos_partial p) r); [apply sound_bmap_ev|apply sound_first_ev]; try exact Mh; intro; apply computes1_snd; auto.
    + intro. apply mono_bfold. intros. apply mono_uninv, Mh.
    + cbv beta. intros ys E. eapply sound_weaken; [apply IH|]. cbv beta. intros zs ->. rewrite E. reflexivity.
Qed.

Lemma cmpl_uninv D P s p inv h xs l : completes1 (sbox_inverse (pos_sbox p)) h -> (pos_full p mod 2 = 0)%nat ->
  length xs = pos_width p -> (0 < length inv)%nat -> hasl s xs l ->
  comp D P s (mixing_inverse p inv xs) (done P (fun r s' => hasl s' r
    (fold_left (fun c r => unround h inv (full_round (pos_full p) (pos_partial p) r) c) (seq 0 (pos_full p + pos_partial p)) l))).
Proof using Hp.
  intros Hf Ev Lx M Hl. unfold mixing_inverse. rewrite Lx, Nat.eqb_refl, Ev.
  eapply comp_liftb; [reflexivity|]. eapply comp_liftb; [reflexivity|]. clear Lx.
  generalize (seq 0 (pos_full p + pos_partial p)) as rs. intro rs. revert s xs l Hl. induction rs as [|r rs IH]; intros s xs l Hl; cbn [bfold fold_left].
  - apply comp_ret. split; [reflexivity|exact Hl].
  - cbv zeta. rewrite (full_round_eq p r Ev).
    eapply comp_bind with (Q := done P (fun ys s' => hasl s' ys (unround h inv (full_round (pos_full p) (pos_partial p) r) l))).
    + pose proof (hasl_true_mul Hp s inv xs l Hl) as Hm. unfold unround.
      destruct (full_round (pos_full p) (pos_partial p) r); [apply comp_bmap_has; auto|].
      assert (L0 : (0 < length (mat_vec inv l))%nat) by (rewrite mat_vec_length; exact M).
      destruct Hm as [|x a ys l' Hx Hm]; [cbn in L0; lia|]. cbn [update_first on_first].
      eapply comp_bind; [apply Hf; exact Hx|]. intros y P1 s1 X1 G1 [-> Hy]. apply comp_ret. split; [reflexivity|]. constructor; [exact Hy|]. eapply hasl_ext; eauto.
    + intros ys P1 s1 X1 G1 [-> Hy]. apply IH. exact Hy.
Qed.
End Undo.

Lemma state_ev {F : Field} (Hp : prime order) w xs : state (length xs) (map (ev w) xs).
Proof.
  pose proof (prime_ge2 Hp) as Hord. split; [apply map_length|]. apply Forall_map, Forall_forall. intros x _. apply (ev_infield Hord).
Qed.

(** ** C117 *)
(** The library's own inverse S-boxes: each undoes its S-box and is undone by it in every satisfying assignment, the
    inverse S-box for nonzero values only (C55), and in honest execution for all values. *)
Lemma finvv_twice {F : Field} (Hp : prime order) a : infield a -> finvv (finvv a) = a.
Proof.
  intro Ia. pose proof (prime_ge2 Hp) as Hord. destruct (Z.eq_dec a 0) as [->|N]; [reflexivity|].
  symmetry. apply (finv_unique Hp (finvv a) a); [apply finvv_infield; [exact Hp|lia]|exact Ia|]. unfold fmul. rewrite Z.mul_comm. apply (finvv_correct Hp); assumption.
Qed.
Theorem C117_sbox : forall (F : Field), prime order -> 2 < order -> forall sb, sbox_available sb -> forall x,
  sound_call (y <- sbox_permute sb x ;; sbox_inverse sb y) (fun w r => (sb = Inverse -> ev w x <> 0) -> ev w r = ev w x) /\
  sound_call (y <- sbox_inverse sb x ;; sbox_permute sb y) (fun w r => (sb = Inverse -> ev w x <> 0) -> ev w r = ev w x) /\
  (forall vals, good_inputs vals -> on_inputs vals x ->
     runs vals (y <- sbox_permute sb x ;; sbox_inverse sb y) (fun r v => e_evaluate v r = Ok (wv vals x)) /\
     runs vals (y <- sbox_inverse sb x ;; sbox_permute sb y) (fun r v => e_evaluate v r = Ok (wv vals x))).
Proof.
  intros F Hp H2 sb A x. pose proof (prime_ge2 Hp) as Hord. assert (I : forall w e, infield (ev w e)) by (intros; apply (ev_infield Hord)).
  assert (D : sb = Inverse \/ sb <> Inverse) by (destruct sb; auto; right; discriminate). destruct D as [->|NI].
  - change (sbox_inverse Inverse) with (sbox_permute Inverse).
    assert (S : sound_call (y <- sbox_permute Inverse x ;; sbox_permute Inverse y) (fun w r => (Inverse = Inverse -> ev w x <> 0) -> ev w r = ev w x)).
    { apply to_call. intros w Hw. change (sbox_permute Inverse) with (fun e => p <- blift (Ok inverse_permutation) ;; permute p e). cbv beta.
      change (sound w (y <- inverse_or_zero x ;; inverse_or_zero y) (fun r => (Inverse = Inverse -> ev w x <> 0) -> ev w r = ev w x)).
      eapply sound_bind; [apply (snd_inverse_or_zero_nz Hp); exact Hw|intro; apply mono_inverse_or_zero|]. cbv beta. intros y Ey.
      eapply sound_weaken; [apply (snd_inverse_or_zero_nz Hp); exact Hw|]. cbv beta. intros r Er N. specialize (N eq_refl). specialize (Ey N).
      destruct (finv_unique Hp _ _ (I w x) (I w y) Ey) as [_ E1]. assert (N2 : ev w y <> 0) by (rewrite E1; apply (finvv_nonzero Hp); auto).
      destruct (finv_unique Hp _ _ (I w y) (I w r) (Er N2)) as [_ E2]. rewrite E2, E1. apply (finvv_twice Hp), I. }
    split; [exact S|]. split; [exact S|]. intros vals Hv Hx.
    assert (R : runs vals (y <- sbox_permute Inverse x ;; sbox_permute Inverse y) (fun r v => e_evaluate v r = Ok (wv vals x))); [|split; exact R].
    apply (to_runs1 Hp); [exact Hv|]. eapply comp_bind; [apply (completes1_sbox Hp Inverse H2 Logic.I), has_input, Hx|]. intros y P1 s1 X1 G1 [-> Hy].
    eapply comp_weaken; [apply (completes1_sbox Hp Inverse H2 Logic.I), Hy|]. cbv beta. intros r P2 s2 _ _ [-> Hr]. split; [reflexivity|].
    cbn [sbox_fun] in Hr. rewrite (finvv_twice Hp) in Hr by apply I. exact Hr.
  - destruct (sbox_both Hp sb NI A) as (h & C & K & HH). pose proof (computes1_sbox Hp sb NI) as C'. pose proof (completes1_sbox Hp sb H2 A) as K'. split; [|split].
    + apply to_call. intros w Hw. eapply sound_bind; [apply (computes1_snd _ _ w x Hw C')|intro; apply C|]. cbv beta. intros y Ey.
      eapply sound_weaken; [apply (computes1_snd _ _ w y Hw C)|]. cbv beta. intros r -> _. rewrite Ey. apply HH, I.
    + apply to_call. intros w Hw. eapply sound_bind; [apply (computes1_snd _ _ w x Hw C)|intro; apply C'|]. cbv beta. intros y Ey.
      eapply sound_weaken; [apply (computes1_snd _ _ w y Hw C')|]. cbv beta. intros r -> _. rewrite Ey. apply HH, I.
    + intros vals Hv Hx. split; (apply (to_runs1 Hp); [exact Hv|]).
      * eapply comp_bind; [apply K', has_input, Hx|]. intros y P1 s1 X1 G1 [-> Hy].
        eapply comp_weaken; [apply K, Hy|]. cbv beta. intros r P2 s2 _ _ [-> Hr]. split; [reflexivity|]. rewrite (proj1 (proj2 (proj2 (HH _ (I _ _))))) in Hr. exact Hr.
      * eapply comp_bind; [apply K, has_input, Hx|]. intros y P1 s1 X1 G1 [-> Hy].
        eapply comp_weaken; [apply K', Hy|]. cbv beta. intros r P2 s2 _ _ [-> Hr]. split; [reflexivity|]. rewrite (proj2 (proj2 (proj2 (HH _ (I _ _))))) in Hr. exact Hr.
Qed.
Print Assumptions C117_sbox.
Example C117_sbox_example : let F : Field := F97 in sbox_available Exponentiation5 /\ sbox_fun Exponentiation5 6 <> 6 /\
  demo [6] (y <- sbox_permute Exponentiation5 (e_wire 1) ;; z <- sbox_inverse Exponentiation5 y ;; bret [y; z]) (fun r => r) = Ok (true, [16; 6]).
Proof. intro F. split; [vm_compute; split; reflexivity|]. split; [vm_compute; discriminate|vm_compute; reflexivity]. Qed.

(** In every satisfying assignment the result of the inverse is the state that the permutation takes to the outputs,
    and there is only one such state. *)
Theorem C117_inverse : forall (F : Field), prime order -> forall p inv, pos_sbox p <> Inverse -> sbox_available (pos_sbox p) ->
  undoes (pos_width p) inv (pos_mds p) -> undoes (pos_width p) (pos_mds p) inv -> forall outs,
  sound_call (mixing_inverse p inv outs) (fun w r => forall a, state (pos_width p) a ->
    (mixing_fun (sbox_fun (pos_sbox p)) (pos_full p) (pos_partial p) (pos_mds p) a = map (ev w) outs <-> a = map (ev w) r)).
Proof.
  intros F Hp p inv NI A U1 U2 outs b r b' w E Hw S a Ha. destruct (sbox_both Hp _ NI A) as (h & C & _ & HH).
  destruct (snd_uninv Hp p inv h w outs Hw C b r b' E S) as (Lo & Ev & Er). split; intro Q.
  - rewrite Er, <- Q. symmetry. apply (undo_fun Hp _ h _ _ (pos_width p)); try assumption; intros x Hx; apply HH, Hx.
  - rewrite Q, Er. apply (redo_fun Hp _ h _ _ (pos_width p)); try assumption; try (intros x Hx; apply HH, Hx). rewrite <- Lo. apply (state_ev Hp).
Qed.
Print Assumptions C117_inverse.

(** Permuting and inverting, in either order, gives back the state, in every satisfying assignment. *)
Theorem C117_round_trip : forall (F : Field), prime order -> forall p inv, pos_sbox p <> Inverse -> sbox_available (pos_sbox p) ->
  undoes (pos_width p) inv (pos_mds p) -> undoes (pos_width p) (pos_mds p) inv -> forall xs,
  sound_call (ys <- mixing_permute p xs ;; mixing_inverse p inv ys) (fun w r => map (ev w) r = map (ev w) xs) /\
  sound_call (ys <- mixing_inverse p inv xs ;; mixing_permute p ys) (fun w r => map (ev w) r = map (ev w) xs).
Proof.
  intros F Hp p inv NI A U1 U2 xs. destruct (sbox_both Hp _ NI A) as (h & C & _ & HH). split; apply to_call; intros w Hw.
  - assert (L : forall b r b', mixing_permute p xs b = Ok (r, b') -> length xs = pos_width p).
    { intros b r b' E. unfold mixing_permute in E. destruct (Nat.eqb_spec (length xs) (pos_width p)); [assumption|discriminate]. }
    eapply sound_bind with (Q := fun ys => length xs = pos_width p /\ map (ev w) ys = mixing_fun (sbox_fun (pos_sbox p)) (pos_full p) (pos_partial p) (pos_mds p) (map (ev w) xs)).
    + intros b r b' E S. split; [eapply L, E|]. exact (snd_mixing Hp p _ w xs Hw (computes1_sbox Hp _ NI) b r b' E S).
    + intro ys. apply mono_bind; [apply mono_lift|intro]. apply mono_bind; [apply mono_lift|intro]. apply mono_bfold. intros. apply mono_uninv, C.
    + cbv beta. intros ys [Lx Ey]. eapply sound_weaken; [apply (snd_uninv Hp p inv h w ys Hw C)|]. cbv beta. intros r (Ly & Ev & Er). rewrite Er, Ey.
      apply (undo_fun Hp _ h _ _ (pos_width p)); try assumption; try (intros x Hx; apply HH, Hx). rewrite <- Lx. apply (state_ev Hp).
  - eapply sound_bind; [apply (snd_uninv Hp p inv h w xs Hw C)|intro; apply (mono_mixing Hp)|]. cbv beta. intros ys (Lx & Ev & Ey).
    eapply sound_weaken; [apply (snd_mixing Hp p _ w ys Hw (computes1_sbox Hp _ NI))|]. cbv beta. intros r Er. rewrite Er, Ey.
    apply (redo_fun Hp _ h _ _ (pos_width p)); try assumption; try (intros x Hx; apply HH, Hx). rewrite <- Lx. apply (state_ev Hp).
Qed.
Print Assumptions C117_round_trip.

(** Honest execution of the inverse succeeds on every state and computes the preimage. *)
Theorem C117_runs : forall (F : Field), prime order -> forall p inv vals outs, pos_sbox p <> Inverse -> sbox_available (pos_sbox p) ->
  (pos_full p mod 2 = 0)%nat -> (0 < pos_width p)%nat -> undoes (pos_width p) (pos_mds p) inv ->
  good_inputs vals -> on_inputs_all vals outs -> length outs = pos_width p ->
  exists a, mixing_fun (sbox_fun (pos_sbox p)) (pos_full p) (pos_partial p) (pos_mds p) a = map (wv vals) outs /\
  runs vals (mixing_inverse p inv outs) (fun r v => omap (e_evaluate v) r = Ok a).
Proof.
  intros F Hp p inv vals outs NI A Ev W U Hv Ho Lo. destruct (sbox_both Hp _ NI A) as (h & _ & C & HH). eexists. split.
  2:{ apply (to_runsl Hp); [exact Hv|]. apply (cmpl_uninv Hp); [exact C|exact Ev|exact Lo|destruct U as (U1 & _); lia|apply hasl_input, Ho]. }
  apply (redo_fun Hp _ h _ _ (pos_width p)); try assumption; try (intros x Hx; apply HH, Hx). rewrite <- Lo. apply (state_ev Hp).
Qed.
Print Assumptions C117_runs.

(** Over F_97: the matrix [[2; 1]; [1; 1]] and its inverse [[1; 96]; [96; 2]]. *)
Lemma undoes_97 : @undoes F97 2 [[1; 96]; [96; 2]] [[2; 1]; [1; 1]] /\ @undoes F97 2 [[2; 1]; [1; 1]] [[1; 96]; [96; 2]].
Proof.
  split; (split; [reflexivity|split; [reflexivity|]]); intros v Hv;
    apply state_S in Hv; destruct Hv as (x & t & -> & Hx & Hv); apply state_S in Hv; destruct Hv as (y & u & -> & Hy & Hv); apply state_0 in Hv; subst u;
    unfold mat_vec; cbn [map combine fst snd row_sum fold_right]; change order with 97 in *;
    (f_equal; [|f_equal]); Z.div_mod_to_equations; lia.
Qed.
Example C117_example : let F : Field := F97 in let p := mkPoseidon 2 2 3 Exponentiation5 [[2; 1]; [1; 1]] in
  undoes 2 [[1; 96]; [96; 2]] (pos_mds p) /\ sbox_available (pos_sbox p) /\
  mixing_fun (fun a => (a ^ 5) mod 97) 2 3 (pos_mds p) [5; 6] <> [5; 6] /\
  demo [5; 6] (ys <- mixing_permute p [e_wire 1; e_wire 2] ;; mixing_inverse p [[1; 96]; [96; 2]] ys) (fun r => r) = Ok (true, [5; 6]).
Proof.
  intros F p. split; [apply undoes_97|]. split; [vm_compute; split; reflexivity|]. split; [vm_compute; discriminate|vm_compute; reflexivity].
Qed.
