(** Circuits put together from correct components are correct. *)
From Coq Require Import ZArith List Bool Arith Lia Znumtheory Permutation.
From Verif Require Import Base FieldM FieldP ExprM BuilderM GadgetsM CryptoM CurveM WaksmanM Spec SpecCrypto SpecCurve ExprP BitsP MonoP LocalP SoundP
  CmpP GadgetSoundP HonestP CompleteP CmpCompleteP GadgetCompleteP EdwardsP WaksmanP CryptoP MatrixP SpongeP CurveP ProgramM ProgramP LibraryM.
Import ListNotations.
Open Scope Z_scope.

Definition fits (t : list bool) (vs : list Z) : Prop := Forall2 (fun (b : bool) v => b = true -> is_bit v) t vs.

Lemma fits_length t vs : fits t vs -> length t = length vs.
Proof. intro H. induction H; cbn; congruence. Qed.
Lemma fits_app t u vs us : fits t vs -> fits u us -> fits (t ++ u) (vs ++ us).
Proof. apply Forall2_app. Qed.
Lemma fits_app_inv t u vs : fits (t ++ u) vs -> fits t (firstn (length t) vs) /\ fits u (skipn (length t) vs).
Proof.
  intro H. apply Forall2_app_inv_l in H. destruct H as (a & b & Ha & Hb & ->). rewrite (fits_length t a Ha).
  rewrite firstn_app, Nat.sub_diag, firstn_all, firstn_O, app_nil_r, skipn_app, Nat.sub_diag, skipn_all, skipn_O. split; assumption.
Qed.
Lemma fits_fields n vs : fits (fields n) vs <-> length vs = n.
Proof.
  unfold fields. split; [intro H; apply fits_length in H; rewrite repeat_length in H; auto|].
  intros <-. induction vs as [|v vs IH]; cbn [length repeat]; constructor; [discriminate|exact IH].
Qed.
Lemma fits_word n vs : fits (word n) vs <-> length vs = n /\ Forall is_bit vs.
Proof.
  unfold word. split.
  - intro H. pose proof (fits_length _ _ H) as L. rewrite repeat_length in L. split; [auto|]. clear L. revert n H.
    induction vs as [|v vs IH]; intros n H; constructor; destruct n; inversion H; subst; auto. eapply IH; eassumption.
  - intros [<- H]. induction H as [|v vs Hv _ IH]; cbn [length repeat]; constructor; auto.
Qed.
Lemma allows_fits want : forall have vs, allows want have = true -> fits have vs -> fits want vs.
Proof.
  induction want as [|a want IH]; intros [|b have] vs E H; cbn in E; try discriminate; inversion H; subst; constructor.
  - apply andb_prop in E. destruct E as [E _]. intro Ea. subst a. destruct b; [auto|discriminate].
  - apply andb_prop in E. eapply IH; [apply E|assumption].
Qed.
Lemma pick_map {A C} (f : A -> C) l is : pick (map f l) is = option_map (map f) (pick l is).
Proof.
  induction is as [|i is IH]; cbn [pick]; [reflexivity|]. rewrite nth_error_map. destruct (nth_error l i); cbn; [|reflexivity].
  rewrite IH. destruct (pick l is); reflexivity.
Qed.
Lemma nth_error_2 {A C} (R : A -> C -> Prop) l m i a : Forall2 R l m -> nth_error l i = Some a -> exists c, nth_error m i = Some c /\ R a c.
Proof.
  intro H. revert i. induction H as [|x y l m Hxy _ IH]; intros [|i] E; cbn in *; try discriminate; [|auto]. injection E as <-. eauto.
Qed.
Lemma pick_2 {A C} (R : A -> C -> Prop) l m is : Forall2 R l m -> forall a, pick l is = Some a -> exists c, pick m is = Some c /\ Forall2 R a c.
Proof.
  intro H. induction is as [|i is IH]; intros a E; cbn [pick] in *; [injection E as <-; exists []; split; [reflexivity|constructor]|].
  destruct (nth_error l i) as [x|] eqn:Ex; [|discriminate]. destruct (pick l is) as [r|] eqn:Er; [|discriminate]. injection E as <-.
  destruct (nth_error_2 R _ _ _ _ H Ex) as (y & -> & Hxy). destruct (IH r eq_refl) as (c & -> & Hc). exists (y :: c). split; [reflexivity|]. constructor; assumption.
Qed.

Lemma Forall2_swap {A C} (R : A -> C -> Prop) l m : Forall2 R l m -> Forall2 (fun y x => R x y) m l.
Proof. induction 1; constructor; auto. Qed.

Section Library.
Context {F : Field}.

(** What a component has to satisfy. *)
Record correct (c : component) : Prop := mkCorrect {
  k_mono : forall es, mono (c_call c es);
  k_local : forall es, local (c_call c es);
  k_sound : forall w es, wf_witness w -> fits (c_in c) (map (ev w) es) ->
    sound w (c_call c es) (fun r => c_run c (map (ev w) es) = Some (map (ev w) r));
  k_run : forall vs new, fits (c_in c) vs -> c_run c vs = Some new -> fits (c_out c) new;
  k_comp : forall D P s es vs new, hasl s es vs -> fits (c_in c) vs -> c_run c vs = Some new ->
    comp D P s (c_call c es) (done P (fun r s' => hasl s' r new))
}.

Definition all_correct (p : circuit) : Prop := forall c is, In (c, is) p -> correct c.
Lemma all_correct_cons c is p : all_correct ((c, is) :: p) -> correct c /\ all_correct p.
Proof. intro H. split; [apply (H c is); left; reflexivity|]. intros c' is' I. apply (H c' is'). right. exact I. Qed.

Lemma mono_construct p : all_correct p -> forall es, mono (construct p es).
Proof.
  induction p as [|[c is] p IH]; intros H es; cbn [construct]; [apply mono_ret|]. apply all_correct_cons in H. destruct H as [Hc H].
  apply mono_bind; [apply mono_lift|intro]. apply mono_bind; [apply (k_mono c Hc)|intro]. apply IH, H.
Qed.
Lemma local_construct p : all_correct p -> forall es, local (construct p es).
Proof.
  induction p as [|[c is] p IH]; intros H es; cbn [construct]; [apply local_ret|]. apply all_correct_cons in H. destruct H as [Hc H].
  apply local_bind; [apply local_lift|intro]. apply local_bind; [apply (k_local c Hc)|intro]. apply IH, H.
Qed.

Lemma meaning_fits p : all_correct p -> forall t t' vs all, typing p t = Some t' -> fits t vs -> meaning p vs = Some all -> fits t' all.
Proof.
  induction p as [|[c is] p IH]; intros H t t' vs all T Ht M; cbn [typing meaning] in *; [congruence|].
  apply all_correct_cons in H. destruct H as [Hc H]. destruct (pick t is) as [have|] eqn:E; [|discriminate].
  destruct (allows (c_in c) have) eqn:A; [|discriminate]. destruct (pick_2 _ _ _ _ Ht _ E) as (args & Ea & Fa). rewrite Ea in M.
  destruct (c_run c args) as [new|] eqn:R; [|discriminate]. eapply (IH H); [exact T| |exact M]. apply fits_app; [exact Ht|].
  eapply (k_run c Hc); [|exact R]. eapply allows_fits; eassumption.
Qed.

Lemma snd_construct p : all_correct p -> forall w t t' es, wf_witness w -> typing p t = Some t' -> fits t (map (ev w) es) ->
  sound w (construct p es) (fun all => meaning p (map (ev w) es) = Some (map (ev w) all)).
Proof.
  induction p as [|[c is] p IH]; intros H w t t' es Hw T Ht; cbn [typing meaning construct] in *; [apply sound_ret; reflexivity|].
  apply all_correct_cons in H. destruct H as [Hc H]. destruct (pick t is) as [have|] eqn:E; [|discriminate].
  destruct (allows (c_in c) have) eqn:A; [|discriminate]. destruct (pick_2 _ _ _ _ Ht _ E) as (args & Ea & Fa).
  eapply sound_bind with (Q := fun xs => pick es is = Some xs).
  - apply sound_lift. unfold ounwrap. intros xs Ex. destruct (pick es is); congruence.
  - intro. apply mono_bind; [apply (k_mono c Hc)|intro; apply mono_construct, H].
  - intros xs Ex. pose proof (pick_map (ev w) es is) as PM. rewrite Ex in PM. cbn [option_map] in PM. rewrite PM in Ea. injection Ea as <-.
    assert (Fi : fits (c_in c) (map (ev w) xs)) by (eapply allows_fits; eassumption).
    eapply sound_bind; [apply (k_sound c Hc w xs Hw Fi)|intro; apply mono_construct, H|].
    intros new R. cbv beta in R. rewrite PM, R, <- map_app. eapply (IH H); [exact Hw|exact T|]. rewrite map_app. apply fits_app; [exact Ht|].
    exact (k_run c Hc _ _ Fi R).
Qed.

Lemma cmpl_construct p : all_correct p -> forall D P s es vs all t t', hasl s es vs -> typing p t = Some t' -> fits t vs -> meaning p vs = Some all ->
  comp D P s (construct p es) (done P (fun r s' => hasl s' r all)).
Proof.
  induction p as [|[c is] p IH]; intros H D P s es vs all t t' Hs T Ht M; cbn [typing meaning construct] in *.
  - injection M as <-. apply comp_ret. split; auto.
  - apply all_correct_cons in H. destruct H as [Hc H]. destruct (pick t is) as [have|] eqn:E; [|discriminate].
    destruct (allows (c_in c) have) eqn:A; [|discriminate]. destruct (pick_2 _ _ _ _ Ht _ E) as (args & Ea & Fa). rewrite Ea in M.
    destruct (c_run c args) as [new|] eqn:R; [|discriminate].
    destruct (pick_2 (fun v e => has s e v) vs es is) with (a := args) as (xs & Ex & Hx); [apply Forall2_swap, Hs|exact Ea|].
    apply Forall2_swap in Hx. apply comp_liftb with (a := xs); [rewrite Ex; reflexivity|].
    assert (Fi : fits (c_in c) args) by (eapply allows_fits; eassumption).
    cbind (eapply (k_comp c Hc); [exact Hx|exact Fi|exact R]). intros r P1 s1 X1 G1 [-> Hr]. carry.
    eapply (IH H); [apply Forall2_app; eassumption|exact T| |exact M]. apply fits_app; [exact Ht|]. exact (k_run c Hc _ _ Fi R).
Qed.

(** A circuit is a correct component. *)
Lemma correct_circuit p t t' outs to : all_correct p -> typing p t = Some t' -> pick t' outs = Some to -> correct (c_circuit p t outs to).
Proof.
  intros H T O. constructor; cbn [c_circuit c_call c_run c_in c_out].
  - intro es. apply mono_bind; [apply mono_construct, H|intro; apply mono_lift].
  - intro es. apply local_bind; [apply local_construct, H|intro; apply local_lift].
  - intros w es Hw Ht. eapply sound_bind; [eapply (snd_construct p H); eassumption|intro; apply mono_lift|]. intros all M. cbv beta in M. rewrite M.
    apply sound_lift. unfold ounwrap. intros r E. rewrite pick_map. destruct (pick all outs) as [x|]; [|discriminate]. injection E as ->. reflexivity.
  - intros vs new Ht E. destruct (meaning p vs) as [all|] eqn:M; [|discriminate].
    destruct (pick_2 _ _ _ _ (meaning_fits p H _ _ _ _ T Ht M) _ O) as (c & Ec & Hc).
    rewrite E in Ec. injection Ec as ->. exact Hc.
  - intros D P s es vs new Hs Ht E. destruct (meaning p vs) as [all|] eqn:M; [|discriminate].
    cbind (eapply (cmpl_construct p H); eassumption). intros r P1 s1 X1 G1 [-> Hr].
    destruct (pick_2 (fun v e => has s1 e v) all r outs) with (a := new) as (xs & Ex & Hx); [apply Forall2_swap, Hr|exact E|].
    eapply comp_lift; [rewrite Ex; reflexivity|]. split; [reflexivity|]. apply Forall2_swap in Hx. exact Hx.
Qed.
End Library.
