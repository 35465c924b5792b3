(** Compilation of straight-line programs is correct. *)
From Coq Require Import ZArith List Bool Arith Lia Znumtheory Permutation.
From Verif Require Import Base FieldM FieldP ExprM BuilderM GadgetsM Spec SpecCurve ExprP BitsP MonoP LocalP SoundP CmpP GadgetSoundP HonestP
  CompleteP CmpCompleteP GadgetCompleteP EdwardsP ProgramM.
Import ListNotations.
Open Scope Z_scope.

Section Mono.
Context {F : Field}.
Lemma mono_cop es o : mono (cop es o).
Proof. destruct o; unfold cop, call2, call1, arg, out1, out0; mono. Qed.
Lemma local_cop es o : local (cop es o).
Proof. destruct o; unfold cop, call2, call1, arg, out1, out0; local. Qed.
Hint Resolve mono_cop : mono.
Hint Resolve local_cop : local.
Lemma mono_compile p : forall es, mono (compile p es).
Proof. induction p as [|o p IH]; intro es; cbn [compile]; [mono|]. apply mono_bind; [mono|]. intro. apply IH. Qed.
Lemma local_compile p : forall es, local (compile p es).
Proof. induction p as [|o p IH]; intro es; cbn [compile]; [local|]. apply local_bind; [local|]. intro. apply IH. Qed.
End Mono.
Global Hint Resolve mono_compile mono_cop : mono.
Global Hint Resolve local_compile local_cop : local.

Section Facts.
Context {F : Field} (Hp : prime order).
Let Hord : 2 <= order := prime_ge2 Hp.

Definition typed (t : list bool) (vs : list Z) : Prop :=
  length t = length vs /\ forall i v, isbit t i = true -> nth_error vs i = Some v -> is_bit v.

Lemma typed_app t vs b v : typed t vs -> (b = true -> is_bit v) -> typed (t ++ [b]) (vs ++ [v]).
Proof.
  intros [L H] Hb. split; [rewrite !app_length, L; reflexivity|]. intros i u Ht Hn. unfold isbit in Ht.
  destruct (lt_eq_lt_dec i (length t)) as [[A|A]|A].
  - rewrite app_nth1 in Ht by exact A. rewrite nth_error_app1 in Hn by lia. exact (H i u Ht Hn).
  - subst i. rewrite app_nth2, Nat.sub_diag in Ht by lia. rewrite L, nth_error_app2, Nat.sub_diag in Hn by lia. cbn in *.
    injection Hn as <-. auto.
  - rewrite nth_overflow in Ht by (rewrite app_length; cbn; lia). discriminate.
Qed.
Lemma typed_repeat vs : typed (repeat false (length vs)) vs.
Proof.
  split; [apply repeat_length|]. intros i v H. unfold isbit in H. rewrite nth_repeat in H. discriminate.
Qed.
Lemma mark_length i : forall t, length (mark i t) = length t.
Proof. induction i; intros [|b t]; cbn; auto. Qed.
Lemma mark_nth i : forall t j, isbit (mark i t) j = true -> j = i \/ isbit t j = true.
Proof.
  unfold isbit. induction i as [|i IH]; intros [|b t] [|j]; cbn; auto. intro H. apply IH in H. destruct H; auto.
Qed.
Lemma typed_mark t vs i : typed t vs -> (forall v, nth_error vs i = Some v -> is_bit v) -> typed (mark i t) vs.
Proof.
  intros [L H] Hb. split; [rewrite mark_length; exact L|]. intros j v Hj. apply mark_nth in Hj. destruct Hj as [->|Hj]; auto. apply H, Hj.
Qed.

Lemma bitb_spec a : bitb a = true <-> is_bit a.
Proof. unfold bitb, is_bit. rewrite orb_true_iff, !Z.eqb_eq. reflexivity. Qed.
Lemma truth_bit b : is_bit (truth b).
Proof. destruct b; [right|left]; reflexivity. Qed.

Lemma zinv_finvv a : infield a -> a <> 0 -> zinv a = finvv a.
Proof using Hp.
  intros Ia Na. unfold zinv, finvv. destruct (Z.eqb_spec a 0); [contradiction|]. symmetry. apply (fexp_spec Hp). pose proof Hord. lia.
Qed.

Lemma inv_unique a r : infield a -> infield r -> a <> 0 -> (a * r) mod order = 1 -> r = zinv a.
Proof using Hp.
  intros Ia Ir Na E. rewrite zinv_finvv by assumption. pose proof (finvv_correct Hp a Ia Na) as E'. unfold fmul in E'.
  apply feqm_eq; [exact Ir|apply (finvv_infield Hp a Hord)|]. apply (feqm_cancel Hp a).
  - intro C. apply Na. apply (feqm_eq a 0 Ia (infield_0 Hord) C).
  - unfold feqm. congruence.
Qed.
Lemma quot_unique a b r : infield a -> infield b -> infield r -> b <> 0 -> (r * b) mod order = a -> r = (a * zinv b) mod order.
Proof using Hp.
  intros Ia Ib Ir Nb E. rewrite zinv_finvv by assumption. pose proof (finvv_correct Hp b Ib Nb) as E'. unfold fmul in E'.
  rewrite <- E, Zmult_mod_idemp_l, <- Z.mul_assoc, <- Zmult_mod_idemp_r, E', Z.mul_1_r. symmetry. apply Z.mod_small, Ir.
Qed.

Lemma nth_error_ev w es i x : nth_error es i = Some x -> nth_error (map (ev w) es) i = Some (ev w x).
Proof. apply map_nth_error. Qed.

Lemma testbit_bits_val l : forall k, Forall is_bit l -> Z.testbit (bits_val l) (Z.of_nat k) = (nth k l 0 =? 1).
Proof.
  induction l as [|b l IH]; intros k Hl; cbn [bits_val nth].
  - rewrite Z.bits_0. destruct k; reflexivity.
  - apply Forall_cons_iff in Hl. destruct Hl as [Hb Hl]. destruct k as [|k].
    + cbn [Z.of_nat]. destruct Hb as [->| ->].
      * rewrite Z.add_0_l, Z.testbit_even_0. reflexivity.
      * rewrite Z.add_comm, Z.testbit_odd_0. reflexivity.
    + rewrite Nat2Z.inj_succ. rewrite <- (IH k Hl). destruct Hb as [->| ->].
      * rewrite Z.add_0_l, Z.testbit_even_succ by lia. reflexivity.
      * rewrite Z.add_comm, Z.testbit_odd_succ by lia. reflexivity.
Qed.

(** ** soundness *)
Section Sound.
Context (w : witness) (Hw : wf_witness w).
Let evf e : infield (ev w e) := ev_infield Hord w e.

Definition good_step (t' : list bool) (es : list expr) (o : op) (new : list expr) : Prop :=
  step (map (ev w) es) o = Some (map (ev w) new) /\ typed t' (map (ev w) (es ++ new)).

Lemma snd_call1 es i k Q : (forall x, nth_error es i = Some x -> sound w (k x) Q) -> (forall x, mono (k x)) -> sound w (call1 es i k) Q.
Proof using.
  intros H M. unfold call1, arg. eapply sound_bind with (Q := fun x => nth_error es i = Some x); [|exact M|exact H].
  apply sound_lift. unfold oindex, ounwrap. intros a E. destruct (nth_error es i); congruence.
Qed.
Lemma snd_call2 es i j k Q : (forall x y, nth_error es i = Some x -> nth_error es j = Some y -> sound w (k x y) Q) ->
  (forall x y, mono (k x y)) -> sound w (call2 es i j k) Q.
Proof using.
  intros H M. change (call2 es i j k) with (call1 es i (fun x => call1 es j (k x))).
  apply snd_call1; [|intro; unfold call1, arg; mono]. intros x Hx. apply snd_call1; auto.
Qed.
Lemma snd_out1 m Q (R : list expr -> Prop) : sound w m Q -> (forall r, Q r -> R [r]) -> sound w (out1 m) R.
Proof using. intros H HR. unfold out1. sbind (exact H). intros r Hr. apply sound_ret. auto. Qed.
Lemma snd_out0 {A} (m : B A) Q (R : list expr -> Prop) : sound w m Q -> (forall r, Q r -> R []) -> sound w (out0 m) R.
Proof using. intros H HR. unfold out0. sbind (exact H). intros r Hr. apply sound_ret. eauto. Qed.

Lemma good1 t es o b r v : typed t (map (ev w) es) -> step (map (ev w) es) o = Some [v] -> ev w r = v -> (b = true -> is_bit v) ->
  good_step (t ++ [b]) es o [r].
Proof using.
  intros T S E Hb. unfold good_step. cbn [map]. rewrite E. split; [exact S|]. rewrite map_app. cbn [map]. rewrite E. apply typed_app; assumption.
Qed.
Lemma good0 t es o : typed t (map (ev w) es) -> step (map (ev w) es) o = Some [] -> good_step t es o [].
Proof using. intros T S. split; [exact S|]. rewrite app_nil_r. exact T. Qed.

Lemma typed_get t es i x : typed t (map (ev w) es) -> isbit t i = true -> nth_error es i = Some x -> is_bit (ev w x).
Proof using. intros [_ T] Hi Hx. apply (T i); [exact Hi|apply nth_error_ev, Hx]. Qed.

Ltac ins := intros; repeat match goal with H : nth_error ?es ?i = Some ?x |- _ =>
  match goal with _ : nth_error (map (ev w) es) i = Some _ |- _ => fail 1 | _ => pose proof (nth_error_ev w es i x H) end end.
Ltac look := unfold step, with2, with1; repeat match goal with H : nth_error (map (ev w) _) ?i = Some _ |- _ => rewrite H; clear H end.
Ltac c1 := apply snd_call1; [ins|intro; unfold out1, out0; mono].
Ltac c2 := apply snd_call2; [ins|intros; unfold out1, out0; mono].

Lemma snd_cop t t' es o : check1 t o = Some t' -> typed t (map (ev w) es) -> sound w (cop es o) (good_step t' es o).
Proof using Hp Hw.
  intros C T. destruct o; cbn [check1] in C; unfold when in C; try (injection C as <-); unfold cop.
  - eapply snd_out1; [apply sound_lift with (Q := fun r => Z.of_N c < order /\ r = e_const (Z.of_N c))|].
    + intros a. unfold e_from_uint, el_from. destruct (Z.ltb_spec (Z.of_N c) order); cbn; [|discriminate]. intro H'. injection H' as <-. auto.
    + intros r [L ->]. eapply good1; [exact T| |apply ev_const; [exact Hord|apply Hw|]|discriminate].
      * unfold step, when. destruct (Z.ltb_spec (Z.of_N c) order); [reflexivity|lia].
      * unfold infield. lia.
  - c2. apply sound_ret. eapply good1; [exact T|look; reflexivity|apply (ev_add_mod Hp)|discriminate].
  - c2. apply sound_ret. eapply good1; [exact T|look; reflexivity|apply (ev_sub_mod Hp)|discriminate].
  - c1. apply sound_ret. eapply good1; [exact T|look; reflexivity| |discriminate].
    rewrite (ev_neg Hord). rewrite <- (Z.mod_small (fopp _) order); [apply (fopp_eqm Hord)|apply infield_opp; [apply Hord|apply evf]].
  - c1. apply sound_ret. eapply good1; [exact T|look; reflexivity|apply (ev_scale_mod Hp)|discriminate].
  - c2. eapply snd_out1; [apply (snd_product Hp w Hw)|]. intros r E. eapply good1; [exact T|look; reflexivity|exact E|discriminate].
  - c2. eapply snd_out1; [apply (snd_quotient Hp w Hw)|]. intros r [N E]. eapply good1; [exact T| | |discriminate].
    + look. unfold when. destruct (Z.eqb_spec (ev w y) 0); [contradiction|reflexivity].
    + apply quot_unique; auto.
  - c1. eapply snd_out1; [apply (snd_inverse Hp w Hw)|]. intros r [E N]. eapply good1; [exact T| | |discriminate].
    + look. unfold when. destruct (Z.eqb_spec (ev w x) 0); [contradiction|reflexivity].
    + apply inv_unique; auto.
  - c1. eapply snd_out1; [apply (snd_exponentiation Hp w Hw); lia|]. intros r E. eapply good1; [exact T|look; reflexivity|exact E|discriminate].
  - c1. eapply snd_out1; [apply (snd_nonzero Hp w Hw)|]. intros r E. eapply good1; [exact T|look; reflexivity| |intros _; apply truth_bit].
    rewrite E. destruct (ev w x =? 0); reflexivity.
  - c1. eapply snd_out1; [apply (snd_zero Hp w Hw)|]. intros r E. eapply good1; [exact T|look; reflexivity|exact E|intros _; apply truth_bit].
  - c2. eapply snd_out1; [apply (snd_equal Hp w Hw)|]. intros r E. eapply good1; [exact T|look; reflexivity|exact E|intros _; apply truth_bit].
  - destruct (isbit t i) eqn:Bi; [injection C as <-|discriminate]. c1. pose proof (typed_get t es i x T Bi H) as Bx.
    eapply snd_out1; [apply (snd_not Hp w Hw); exact Bx|]. intros r E. eapply good1; [exact T| | |intros _; apply truth_bit].
    + look. rewrite (proj2 (bitb_spec _) Bx). reflexivity.
    + rewrite E. destruct Bx as [->| ->]; reflexivity.
  - destruct (isbit t i) eqn:Bi, (isbit t j) eqn:Bj; cbn in C; try discriminate. injection C as <-. c2.
    pose proof (typed_get t es i x T Bi H) as Bx. pose proof (typed_get t es j y T Bj H0) as By.
    eapply snd_out1; [apply (snd_and Hp w Hw); assumption|]. intros r E. eapply good1; [exact T| | |intros _; apply truth_bit].
    + look. rewrite (proj2 (bitb_spec _) Bx), (proj2 (bitb_spec _) By). reflexivity.
    + rewrite E. destruct Bx as [->| ->], By as [->| ->]; reflexivity.
  - destruct (isbit t i) eqn:Bi, (isbit t j) eqn:Bj; cbn in C; try discriminate. injection C as <-. c2.
    pose proof (typed_get t es i x T Bi H) as Bx. pose proof (typed_get t es j y T Bj H0) as By.
    eapply snd_out1; [apply (snd_or Hp w Hw); assumption|]. intros r E. eapply good1; [exact T| | |intros _; apply truth_bit].
    + look. rewrite (proj2 (bitb_spec _) Bx), (proj2 (bitb_spec _) By). reflexivity.
    + rewrite E. destruct Bx as [->| ->], By as [->| ->]; reflexivity.
  - destruct (isbit t i) eqn:Bi, (isbit t j) eqn:Bj; cbn in C; try discriminate. injection C as <-. c2.
    pose proof (typed_get t es i x T Bi H) as Bx. pose proof (typed_get t es j y T Bj H0) as By.
    eapply snd_out1; [apply (snd_xor Hp w Hw); assumption|]. intros r E. eapply good1; [exact T| | |intros _; apply truth_bit].
    + look. rewrite (proj2 (bitb_spec _) Bx), (proj2 (bitb_spec _) By). reflexivity.
    + rewrite E. destruct Bx as [->| ->], By as [->| ->]; reflexivity.
  - destruct (isbit t c) eqn:Bc; [injection C as <-|discriminate].
    apply snd_call1; [|intro; unfold call2, arg, out1; mono]. intros ct Hc. c2. pose proof (typed_get t es c ct T Bc Hc) as Bt.
    eapply snd_out1; [apply (snd_selection Hp w Hw); exact Bt|]. intros r E. eapply good1; [exact T| |exact E|].
    + look. rewrite (proj2 (bitb_spec _) Bt). reflexivity.
    + intro B2. apply andb_prop in B2. destruct B2 as [Bi Bj]. destruct (_ =? 1); [exact (typed_get t es i x T Bi ltac:(assumption))|exact (typed_get t es j y T Bj ltac:(assumption))].
  - c1. sbind (apply (snd_split Hp w Hw)). intros bits (L & Bo & V).
    eapply snd_out1; [apply sound_lift with (Q := fun r => nth_error bits k = Some r)|].
    + intros a E. unfold oindex, ounwrap in E. destruct (nth_error bits k); congruence.
    + intros r Hr. assert (Lk : (k < max_bits)%nat) by (rewrite <- L; apply nth_error_Some; congruence).
      eapply good1; [exact T| | |intros _; apply truth_bit].
      * look. unfold when. destruct (Nat.ltb_spec k max_bits); [reflexivity|lia].
      * rewrite <- V. unfold bin_val. rewrite (testbit_bits_val (map (ev w) bits) k).
        -- erewrite (nth_error_nth _ k); [|apply nth_error_ev, Hr]. 
           assert (B : is_bit (ev w r)) by (unfold bin_ok in Bo; rewrite Forall_forall in Bo; apply Bo; eapply nth_error_In; exact Hr).
           destruct B as [->| ->]; reflexivity.
        -- rewrite Forall_map. exact Bo.
  - c1. eapply snd_out0; [apply (snd_assert_zero Hp w Hw)|]. intros r E. apply good0; [exact T|]. look. rewrite E. reflexivity.
  - c2. eapply snd_out0; [apply (snd_assert_equal Hp w Hw)|]. intros r E. apply good0; [exact T|]. look. rewrite E, Z.eqb_refl. reflexivity.
  - c1. eapply snd_out0; [apply (snd_assert_nonzero Hp w Hw)|]. intros r E. apply good0; [exact T|]. look.
    destruct (Z.eqb_spec (ev w x) 0); [contradiction|reflexivity].
  - c2. eapply snd_out0; [apply (snd_assert_nonequal Hp w Hw)|]. intros r E. apply good0; [exact T|]. look.
    destruct (Z.eqb_spec (ev w x) (ev w y)); [contradiction|reflexivity].
  - c1. eapply snd_out0; [apply (snd_assert_boolean Hp w Hw)|]. intros r [_ E]. apply good0.
    + apply typed_mark; [exact T|]. intros v Hv. congruence.
    + look. rewrite (proj2 (bitb_spec _) E). reflexivity.
  - c1. eapply snd_out0; [apply (snd_assert_true Hp w Hw)|]. intros r E. apply good0; [exact T|]. look. rewrite E. reflexivity.
  - c1. eapply snd_out0; [apply (snd_assert_false Hp w Hw)|]. intros r E. apply good0; [exact T|]. look. rewrite E. reflexivity.
  - c2. eapply snd_out0; [apply (snd_assert_lt Hp w Hw)|]. intros r E. apply good0; [exact T|]. look.
    destruct (Z.ltb_spec (ev w x) (ev w y)); [reflexivity|cbv beta in E; lia].
  - c2. eapply snd_out0; [apply (snd_assert_gt Hp w Hw)|]. intros r E. apply good0; [exact T|]. look.
    destruct (Z.ltb_spec (ev w y) (ev w x)); [reflexivity|cbv beta in E; lia].
Qed.

Lemma snd_compile p : forall t es, check p t = true -> typed t (map (ev w) es) ->
  sound w (compile p es) (fun out => run p (map (ev w) es) = Some (map (ev w) out)).
Proof using Hp Hw.
  induction p as [|o p IH]; intros t es C T; cbn [check compile run] in *; [apply sound_ret; reflexivity|].
  destruct (check1 t o) as [t'|] eqn:C1; [|discriminate].
  eapply sound_bind; [eapply snd_cop; eauto|intro; mono|]. intros new [E T']. rewrite E. rewrite <- map_app. eapply IH; eauto.
Qed.
End Sound.

(** ** completeness *)
Section Complete.
Context (H2 : 2 < order) (H4 : (4 <= max_bits)%nat) (D : nat -> Prop).

Lemma hasl_get s es vs i a : hasl s es vs -> nth_error vs i = Some a -> exists e, nth_error es i = Some e /\ has s e a.
Proof using.
  intro H. revert i. induction H as [|e v es vs He _ IH]; intros [|i] E; cbn in *; try discriminate; [|apply IH, E].
  injection E as <-. eauto.
Qed.

Lemma cmpl_call1 P s es vs i k (f : Z -> option (list Z)) new : hasl s es vs -> with1 vs i f = Some new ->
  (forall x a, has s x a -> f a = Some new -> comp D P s (k x) (done P (fun r s' => hasl s' r new))) ->
  comp D P s (call1 es i k) (done P (fun r s' => hasl s' r new)).
Proof using.
  intros H E Hk. unfold with1 in E. destruct (nth_error vs i) as [a|] eqn:En; [|discriminate]. destruct (hasl_get _ _ _ _ _ H En) as (e & Ee & He).
  unfold call1, arg. apply comp_liftb with (a := e); [unfold oindex; rewrite Ee; reflexivity|]. eapply Hk; eauto.
Qed.
Lemma cmpl_call2 P s es vs i j k (f : Z -> Z -> option (list Z)) new : hasl s es vs -> with2 vs i j f = Some new ->
  (forall x y a b, has s x a -> has s y b -> f a b = Some new -> comp D P s (k x y) (done P (fun r s' => hasl s' r new))) ->
  comp D P s (call2 es i j k) (done P (fun r s' => hasl s' r new)).
Proof using.
  intros H E Hk. change (call2 es i j k) with (call1 es i (fun x => call1 es j (k x))).
  eapply cmpl_call1; [exact H|exact E|]. intros x a Hx E'. eapply cmpl_call1; [exact H|exact E'|]. intros y b Hy E''. eapply Hk; eauto.
Qed.
Lemma cmpl_out1 P s m v v' : comp D P s m (done P (fun r s' => has s' r v)) -> v = v' ->
  comp D P s (out1 m) (done P (fun r s' => hasl s' r [v'])).
Proof using.
  intros H <-. unfold out1. cbind (exact H). intros r P1 s1 _ _ [-> Hr]. apply comp_ret. split; auto. constructor; [exact Hr|constructor].
Qed.
Lemma cmpl_out0 {A} P s (m : B A) : comp D P s m (done P (fun _ _ => True)) -> comp D P s (out0 m) (done P (fun r s' => hasl s' r [])).
Proof using.
  intros H. unfold out0. cbind (exact H). intros r P1 s1 _ _ [-> _]. apply comp_ret. split; auto. constructor.
Qed.
Lemma cmpl_same {A} P s (m : B A) : comp D P s m (fun _ P' s' => P' = P /\ s' = s) -> comp D P s m (done P (fun _ _ => True)).
Proof using. intro H. cweaken (exact H). intros a P1 s1 _ _ [-> _]. split; auto. Qed.
Lemma cmpl_pure P s e v v' : has s e v -> v = v' -> comp D P s (bret [e]) (done P (fun r s' => hasl s' r [v'])).
Proof using. intros H <-. apply comp_ret. split; auto. constructor; [exact H|constructor]. Qed.
Lemma when_inv {R} b (r r' : R) : when b r = Some r' -> b = true /\ r' = r.
Proof using. destruct b; cbn; intro E; [injection E as <-; auto|discriminate]. Qed.

Ltac d1 := eapply cmpl_call1; [eassumption|eassumption|]; cbv beta; intros x a Hx E'.
Ltac d2 := eapply cmpl_call2; [eassumption|eassumption|]; cbv beta; intros x y a b Hx Hy E'.
Ltac wh := match goal with H : when _ _ = Some _ |- _ => apply when_inv in H; let C := fresh "C" in destruct H as [C ->] end.
Ltac som := match goal with H : Some _ = Some _ |- _ => injection H as <- end.
Ltac nz := match goal with H : negb (_ =? _) = true |- _ => apply negb_true_iff, Z.eqb_neq in H end.
Ltac bits := repeat match goal with H : (_ && _)%bool = true |- _ => apply andb_prop in H; destruct H | H : bitb _ = true |- _ => apply bitb_spec in H end.

Lemma cmpl_cop P s es vs o new : hasl s es vs -> step vs o = Some new ->
  comp D P s (cop es o) (done P (fun r s' => hasl s' r new)).
Proof using Hp H2 H4.
  intros H E. destruct o; cbn [step] in E; unfold cop.
  - apply when_inv in E. destruct E as [C ->]. apply Z.ltb_lt in C. eapply cmpl_out1; [|reflexivity]. apply comp_hon. intros G _ _.
    eapply comp_lift; [unfold e_from_uint, el_from; destruct (Z.ltb_spec (Z.of_N c) order); [reflexivity|lia]|]. split; auto.
    apply (has_const Hp); [exact G|unfold infield; lia].
  - d2. som. eapply cmpl_pure; [apply (has_add Hp); eassumption|reflexivity].
  - d2. som. eapply cmpl_pure; [apply (has_sub Hp); eassumption|reflexivity].
  - d1. som. eapply cmpl_pure; [apply (has_neg Hp); eassumption|reflexivity].
  - d1. som. eapply cmpl_pure; [apply (has_scale Hp); eassumption|reflexivity].
  - d2. som. eapply cmpl_out1; [apply (cmpl_product Hp); eassumption|reflexivity].
  - d2. wh. nz. eapply cmpl_out1; [apply (cmpl_quotient Hp H2); eassumption|]. rewrite zinv_finvv; [reflexivity|eapply (has_infield Hp); eassumption|exact C].
  - d1. wh. nz. eapply cmpl_out1; [apply (cmpl_inverse Hp H2); eassumption|]. rewrite zinv_finvv; [reflexivity|eapply (has_infield Hp); eassumption|exact C].
  - d1. som. eapply cmpl_out1; [apply (cmpl_exponentiation Hp); [lia|eassumption]|reflexivity].
  - d1. som. eapply cmpl_out1; [apply (cmpl_nonzero Hp H2); eassumption|]. destruct (a =? 0); reflexivity.
  - d1. som. eapply cmpl_out1; [apply (cmpl_zero Hp H2); eassumption|]. destruct (a =? 0); reflexivity.
  - d2. som. eapply cmpl_out1; [apply (cmpl_equal Hp H2); eassumption|]. destruct (a =? b); reflexivity.
  - d1. wh. bits. eapply cmpl_out1; [apply (cmpl_not Hp); eassumption|]. destruct C as [->| ->]; reflexivity.
  - d2. wh. bits. eapply cmpl_out1; [apply (cmpl_and Hp); eassumption|]. destruct H0 as [->| ->], H1 as [->| ->]; reflexivity.
  - d2. wh. bits. eapply cmpl_out1; [apply (cmpl_or Hp); eassumption|]. destruct H0 as [->| ->], H1 as [->| ->]; reflexivity.
  - d2. wh. bits. eapply cmpl_out1; [apply (cmpl_xor Hp H2); eassumption|]. destruct H0 as [->| ->], H1 as [->| ->]; reflexivity.
  - eapply cmpl_call1; [exact H|exact E|]. cbv beta. intros ct t Ht Et. clear E. d2. wh. bits.
    eapply cmpl_out1; [apply (cmpl_selection Hp); eassumption|reflexivity].
  - d1. wh. apply Nat.ltb_lt in C. cbind (apply (cmpl_split Hp H2); [exact H4|exact Hx]). intros bits P1 s1 X1 G1 [-> Hb].
    assert (En : nth_error (zbl a max_bits) k = Some (b2z (zbit a k))).
    { rewrite <- (zbl_nth a max_bits k C). apply nth_error_nth'. rewrite zbl_length. exact C. }
    destruct (hasl_get _ _ _ _ _ Hb En) as (e & Ee & He).
    eapply cmpl_out1; [eapply comp_lift; [unfold oindex; rewrite Ee; reflexivity|split; [reflexivity|exact He]]|reflexivity].
  - d1. wh. apply Z.eqb_eq in C. subst a. apply cmpl_out0, cmpl_same. apply (cmpl_assert_zero Hp); exact Hx.
  - d2. wh. apply Z.eqb_eq in C. subst b. apply cmpl_out0, cmpl_same. eapply (cmpl_assert_equal Hp); eassumption.
  - d1. wh. nz. apply cmpl_out0. eapply (cmpl_assert_nonzero Hp H2); eassumption.
  - d2. wh. nz. apply cmpl_out0. eapply (cmpl_assert_nonequal Hp H2); eassumption.
  - d1. wh. bits. apply cmpl_out0. cweaken (eapply (cmpl_assert_boolean Hp); eassumption). intros r P1 s1 _ _ Q. split; [apply Q|exact I].
  - d1. wh. apply Z.eqb_eq in C. subst a. apply cmpl_out0, cmpl_same. apply (cmpl_assert_true Hp); exact Hx.
  - d1. wh. apply Z.eqb_eq in C. subst a. apply cmpl_out0, cmpl_same. apply (cmpl_assert_false Hp); exact Hx.
  - d2. wh. apply cmpl_out0. eapply (cmpl_assert_cmp Hp H2); [exact H4|exact Hx|exact Hy|]. exact C.
  - d2. wh. apply cmpl_out0. eapply (cmpl_assert_cmp Hp H2); [exact H4|exact Hx|exact Hy|]. exact C.
Qed.

Lemma cmpl_compile P p : forall s es vs out, hasl s es vs -> run p vs = Some out ->
  comp D P s (compile p es) (done P (fun r s' => hasl s' r out)).
Proof using Hp H2 H4.
  induction p as [|o p IH]; intros s es vs out H E; cbn [compile run] in *.
  - injection E as <-. apply comp_ret. split; auto.
  - destruct (step vs o) as [new|] eqn:Es; [|discriminate]. cbind (eapply cmpl_cop; eassumption). intros r P1 s1 X1 G1 [-> Hr]. carry.
    eapply IH; [|exact E]. apply Forall2_app; assumption.
Qed.
End Complete.
End Facts.
