(** Components of the library that leave no freedom, and circuits made of them: helper lemmas for PropsUnique.v. *)
From Coq Require Import ZArith Znumtheory List Bool Arith Lia.
From Verif Require Import Base FieldM FieldP ExprM BuilderM GadgetsM CryptoM CurveM Spec SpecCrypto SpecUnique ExprP BitsP MonoP LocalP SoundP CmpP GadgetSoundP
  HonestP CryptoP MatrixP SpongeP EdwardsP ProgramM ProgramP UniqueP CmpUniqueP LibraryM LibraryP ComponentsP.
Import ListNotations.
Open Scope Z_scope.

Section Two.
Context {F : Field} (Hp : prime order) (w1 w2 : witness) (Hw1 : wf_witness w1) (Hw2 : wf_witness w2).
Notation same := (same w1 w2).
Notation sames := (sames w1 w2).
Notation fixed := (fixed w1 w2).
Local Tactic Notation "fbind" tactic(t) := eapply fixed_bind; [ solve [t] | intro; mono | cbv beta ].

Lemma fixed_elim {A} (m : B A) Q b a b' : fixed m Q -> m b = Ok (a, b') -> sat w1 b' -> sat w2 b' -> Q a /\ forall k, (next b <= k < next b')%nat -> w1 k = w2 k.
Proof using.
  intros H E S1 S2. destruct (H b a b' E S1 S2) as (U & [-> HQ] & HU). split; [exact HQ|]. intros k Hk. destruct (HU k (or_intror Hk)) as [[]|]; assumption.
Qed.
Lemma fixed_intro {A} (m : B A) (Q : A -> Prop) :
  (forall b a b', m b = Ok (a, b') -> sat w1 b' -> sat w2 b' -> Q a /\ forall k, (next b <= k < next b')%nat -> w1 k = w2 k) -> fixed m Q.
Proof using.
  intros H b a b' E S1 S2. destruct (H b a b' E S1 S2) as [HQ HK]. exists []. split; [auto|]. intros k [[]|Hk]. right. apply HK, Hk.
Qed.
Lemma sames_eq l : sames l <-> map (ev w1) l = map (ev w2) l.
Proof using. split; [apply sames_map|]. induction l as [|e l IH]; cbn [map]; intro E; constructor; injection E as E1 E2; auto. apply IH, E2. Qed.
Lemma fixed_out1 m : fixed m same -> fixed (out1 m) sames.
Proof using. intro H. unfold out1. eapply fixed_bind; [exact H|intro; mono|]. intros r Hr. apply fixed_ret. constructor; [exact Hr|constructor]. Qed.
Lemma fixed_out0 {A} (m : B A) Q : fixed m Q -> fixed (out0 m) sames.
Proof using. intro H. unfold out0. eapply fixed_bind; [exact H|intro; mono|]. intros r _. apply fixed_ret. constructor. Qed.
Lemma rigid2_of m : (forall x y, mono (m x y)) -> no_freedom2 m -> rigid2 w1 w2 m.
Proof using Hw1 Hw2.
  intros M N. split; [exact M|]. intros x y Hx Hy. apply fixed_intro. intros b a b' E S1 S2.
  destruct (N x y b a b' w1 w2 E Hw1 Hw2 S1 S2 I I) as [R K]; [cbn [map]; unfold UniqueP.same in Hx, Hy; congruence|]. split; [|exact K].
  unfold one_result in R. injection R as R. exact R.
Qed.
Lemma rigid1_of m : (forall x, mono (m x)) -> no_freedom1 m -> rigid1 w1 w2 m.
Proof using Hw1 Hw2.
  intros M N. split; [exact M|]. intros x Hx. apply fixed_intro. intros b a b' E S1 S2.
  destruct (N x b a b' w1 w2 E Hw1 Hw2 S1 S2 I I) as [R K]; [cbn [map]; unfold UniqueP.same in Hx; congruence|]. split; [|exact K].
  unfold one_result in R. injection R as R. exact R.
Qed.
Lemma rigidl_of m : (forall x, mono (m x)) -> no_freedoml m -> rigidl w1 w2 m.
Proof using Hw1 Hw2.
  intros M N. split; [exact M|]. intros x Hx. apply fixed_intro. intros b a b' E S1 S2.
  destruct (N x b a b' w1 w2 E Hw1 Hw2 S1 S2 I I) as [R K]; [apply sames_eq, Hx|]. split; [|exact K].
  unfold all_results in R. apply sames_eq, R.
Qed.

Lemma fixed_arg es i : sames es -> fixed (arg es i) same.
Proof using. intro H. apply fixed_lift. intros e. apply sames_index, H. Qed.
Lemma fixed_call1 es i k : sames es -> (forall x, mono (k x)) -> (forall x, same x -> fixed (k x) sames) -> fixed (call1 es i k) sames.
Proof using. intros H M K. unfold call1. eapply fixed_bind; [apply fixed_arg, H|exact M|exact K]. Qed.
Lemma fixed_call2 es i j k : sames es -> (forall x y, mono (k x y)) -> (forall x y, same x -> same y -> fixed (k x y) sames) -> fixed (call2 es i j k) sames.
Proof using.
  intros H M K. unfold call2. eapply fixed_bind; [apply fixed_arg, H|intro; apply mono_bind; [apply mono_lift|intro; apply M]|]. intros x Hx.
  eapply fixed_bind; [apply fixed_arg, H|intro; apply M|]. intros y Hy. apply K; assumption.
Qed.
(** the operations whose wires are determined by their arguments *)
Definition forced (o : op) : Prop := match o with ONonzero _ | OIsZero _ | OEqual _ _ => False | _ => True end.
Lemma sames_1 x : same x -> fixed (bret [x]) sames.
Proof using. intro H. apply fixed_ret. constructor; [exact H|constructor]. Qed.
Lemma fixed_cop es o : forced o -> sames es -> fixed (cop es o) sames.
Proof using Hp Hw1 Hw2.
  intros Fo H. destruct o; cbn [forced] in Fo; try contradiction; cbn [cop].
  - apply fixed_out1, fixed_lift. intros e E. unfold e_from_uint in E. destruct (el_from _) as [z| |]; cbn [obind] in E; try discriminate. injection E as <-. apply (same_const w1 w2 Hw1 Hw2).
  - apply fixed_call2; [exact H|intros; mono|]. intros x y Hx Hy. apply sames_1, (same_add Hp); assumption.
  - apply fixed_call2; [exact H|intros; mono|]. intros x y Hx Hy. apply sames_1, (same_sub Hp); assumption.
  - apply fixed_call1; [exact H|intros; mono|]. intros x Hx. apply sames_1, (same_neg Hp); assumption.
  - apply fixed_call1; [exact H|intros; mono|]. intros x Hx. apply sames_1, (same_scale Hp); assumption.
  - apply fixed_call2; [exact H|intros; unfold out1; mono|]. intros x y Hx Hy. apply fixed_out1, (fixed_product Hp); assumption.
  - apply fixed_call2; [exact H|intros; unfold out1; mono|]. intros x y Hx Hy. apply fixed_out1, (fixed_quotient Hp); assumption.
  - apply fixed_call1; [exact H|intros; unfold out1; mono|]. intros x Hx. apply fixed_out1, (fixed_inverse Hp); assumption.
  - apply fixed_call1; [exact H|intros; unfold out1; mono|]. intros x Hx. apply fixed_out1, (fixed_exponentiation Hp); assumption.
  - apply fixed_call1; [exact H|intros; unfold out1; mono|]. intros x Hx. apply fixed_out1, (fixed_not Hp); assumption.
  - apply fixed_call2; [exact H|intros; unfold out1; mono|]. intros x y Hx Hy. apply fixed_out1, (fixed_product Hp); assumption.
  - apply fixed_call2; [exact H|intros; unfold out1; mono|]. intros x y Hx Hy. apply fixed_out1, (fixed_or Hp); assumption.
  - apply fixed_call2; [exact H|intros; unfold out1; mono|]. intros x y Hx Hy. apply fixed_out1, (fixed_xor Hp); assumption.
  - apply fixed_call1; [exact H|intros; unfold out1, call2, arg; mono|]. intros t Ht. apply fixed_call2; [exact H|intros; unfold out1; mono|].
    intros x y Hx Hy. apply fixed_out1, (fixed_selection Hp); assumption.
  - apply fixed_call1; [exact H|intros; unfold out1; mono|]. intros x Hx. fbind (apply (fixed_split Hp); assumption). intros bits Hb.
    apply fixed_out1, fixed_lift. intros e. apply sames_index, Hb.
  - apply fixed_call1; [exact H|intros; unfold out0; mono|]. intros x Hx. eapply fixed_out0, fixed_assert_equal.
  - apply fixed_call2; [exact H|intros; unfold out0; mono|]. intros x y Hx Hy. eapply fixed_out0, fixed_assert_equal.
  - apply fixed_call1; [exact H|intros; unfold out0; mono|]. intros x Hx. eapply fixed_out0, (fixed_assert_nonzero Hp); assumption.
  - apply fixed_call2; [exact H|intros; unfold out0; mono|]. intros x y Hx Hy. eapply fixed_out0, (fixed_assert_nonequal Hp); assumption.
  - apply fixed_call1; [exact H|intros; unfold out0; mono|]. intros x Hx. eapply fixed_out0, fixed_assert_boolean; assumption.
  - apply fixed_call1; [exact H|intros; unfold out0; mono|]. intros x Hx. eapply fixed_out0, fixed_assert_equal.
  - apply fixed_call1; [exact H|intros; unfold out0; mono|]. intros x Hx. eapply fixed_out0, fixed_assert_equal.
  - apply fixed_call2; [exact H|intros; unfold out0; mono|]. intros x y Hx Hy. eapply fixed_out0, (fixed_assert_lt Hp); assumption.
  - apply fixed_call2; [exact H|intros; unfold out0; mono|]. intros x y Hx Hy. eapply fixed_out0, (fixed_assert_gt Hp); assumption.
Qed.

Lemma cut_sames ns : forall l, sames l -> Forall sames (cut ns l).
Proof using. induction ns as [|n ns IH]; intros l H; cbn [cut]; constructor; [apply sames_firstn, H|apply IH, sames_skipn, H]. Qed.
Lemma cut_ok w ns : forall l, bin_ok w l -> Forall (bin_ok w) (cut ns l).
Proof using.
  unfold bin_ok. induction ns as [|n ns IH]; intros l H; cbn [cut]; constructor.
  - rewrite <- (firstn_skipn n l) in H. apply Forall_app in H. apply H.
  - apply IH. rewrite <- (firstn_skipn n l) in H. apply Forall_app in H. apply H.
Qed.
Lemma word_ok w n l : fits (word n) (map (ev w) l) -> bin_ok w l.
Proof using. intro H. apply fits_word in H. destruct H as [_ H]. rewrite Forall_map in H. exact H. Qed.
Lemma ok_same l : sames l -> bin_ok w1 l -> bin_ok w2 l.
Proof using. intros H B. unfold bin_ok in *. rewrite Forall_forall in *. unfold UniqueP.sames in H. rewrite Forall_forall in H. intros e He. specialize (H e He). unfold UniqueP.same in H. rewrite <- H. apply B, He. Qed.
Lemma ok_firstn w n l : bin_ok w l -> bin_ok w (firstn n l).
Proof using. unfold bin_ok. intro H. rewrite <- (firstn_skipn n l) in H. apply Forall_app in H. apply H. Qed.
Lemma ok_skipn w n l : bin_ok w l -> bin_ok w (skipn n l).
Proof using. unfold bin_ok. intro H. rewrite <- (firstn_skipn n l) in H. apply Forall_app in H. apply H. Qed.
End Two.

Section Tight.
Context {F : Field} (Hp : prime order).

Definition tight (c : component) : Prop := forall w1 w2, wf_witness w1 -> wf_witness w2 -> forall es, fits (c_in c) (map (ev w1) es) -> sames w1 w2 es ->
  fixed w1 w2 (c_call c es) (sames w1 w2).

Ltac start := intros w1 w2 Hw1 Hw2 es T H; cbn [c_op c_bit c_truth c_split c_split_bounded c_join c_sum c_sum_wrapping c_sum_checked c_wnot c_bitwise c_wless c_wgreater
  c_access c_permutation c_compress c_hash c_root c_member c_lanes c_sponge c_point c_call c_run c_in c_out] in *.
Ltac single es H := destruct es as [|?x [|? ?]]; try (apply fixed_lift; discriminate); inversion H; subst.
Ltac double es H := destruct es as [|?x [|?y [|? ?]]]; try (apply fixed_lift; discriminate); inversion H as [|? ? ? H']; subst; inversion H'; subst.

Lemma tight_op t o out : forced o -> tight (c_op t o out).
Proof using Hp. intro Fo. start. apply (fixed_cop Hp); assumption. Qed.
Lemma tight_bit : tight c_bit.
Proof using Hp. start. single es H. eapply fixed_bind; [apply fixed_assert_boolean; eassumption|intro; mono|]. intros _ _. apply fixed_ret. constructor; [assumption|constructor]. Qed.
Lemma tight_truth b : tight (c_truth b).
Proof using Hp. start. apply fixed_ret. constructor; [|constructor]. destruct b; [apply (same_bool Hp w1 w2 Hw1 Hw2 true)|apply (same_bool Hp w1 w2 Hw1 Hw2 false)]. Qed.
Lemma tight_split : tight c_split.
Proof using Hp. start. single es H. apply (fixed_split Hp); assumption. Qed.
Lemma tight_split_bounded n : tight (c_split_bounded n).
Proof using Hp. start. single es H. apply (fixed_split_bounded Hp); assumption. Qed.
Lemma tight_join n : tight (c_join n).
Proof using Hp. start. apply fixed_out1, fixed_lift. intros e E. eapply (same_join Hp); eassumption. Qed.
Lemma tight_sum ns : tight (c_sum ns).
Proof using Hp. start. apply word_ok in T. apply (fixed_binary_summation Hp); auto; [apply cut_sames, H|apply cut_ok, T|eapply cut_ok, ok_same; eassumption]. Qed.
Lemma tight_sum_wrapping ns : tight (c_sum_wrapping ns).
Proof using Hp. start. apply word_ok in T. apply (fixed_bs_ignoring Hp); auto; [apply cut_sames, H|apply cut_ok, T|eapply cut_ok, ok_same; eassumption]. Qed.
Lemma tight_sum_checked ns : tight (c_sum_checked ns).
Proof using Hp. start. apply word_ok in T. apply (fixed_bs_asserting Hp); auto; [apply cut_sames, H|apply cut_ok, T|eapply cut_ok, ok_same; eassumption]. Qed.
Lemma tight_wnot n : tight (c_wnot n).
Proof using Hp. start. apply (fixed_bitwise_not Hp); assumption. Qed.
Lemma tight_wand n f : tight (c_bitwise n bitwise_and f).
Proof using Hp. start. apply fixed_bitwise2; [intros; mono| |apply sames_firstn, H|apply sames_skipn, H]. intros. apply (fixed_product Hp); assumption. Qed.
Lemma tight_wor n f : tight (c_bitwise n bitwise_or f).
Proof using Hp. start. apply fixed_bitwise2; [intros; mono| |apply sames_firstn, H|apply sames_skipn, H]. intros. apply (fixed_or Hp); assumption. Qed.
Lemma tight_wxor n f : tight (c_bitwise n bitwise_xor f).
Proof using Hp. start. apply fixed_bitwise2; [intros; mono| |apply sames_firstn, H|apply sames_skipn, H]. intros. apply (fixed_xor Hp); assumption. Qed.
Lemma tight_wless n : tight (c_wless n).
Proof using Hp.
  start. apply word_ok in T. pose proof (ok_same _ _ _ H T) as T2.
  eapply fixed_out0, (fixed_assert_lt_binary Hp); auto; solve [apply sames_firstn, H|apply sames_skipn, H|apply ok_firstn; assumption|apply ok_skipn; assumption].
Qed.
Lemma tight_wgreater n : tight (c_wgreater n).
Proof using Hp.
  start. apply word_ok in T. pose proof (ok_same _ _ _ H T) as T2.
  eapply fixed_out0, (fixed_assert_gt_binary Hp); auto; solve [apply sames_firstn, H|apply sames_skipn, H|apply ok_firstn; assumption|apply ok_skipn; assumption].
Qed.
Lemma tight_access n : tight (c_access n).
Proof using Hp. start. destruct es as [|i items]; [apply fixed_lift; discriminate|]. inversion H; subst. apply fixed_out1, (fixed_random_access Hp); assumption. Qed.
Lemma tight_compress m h : (forall x y, mono (m x y)) -> no_freedom2 m -> tight (c_compress m h).
Proof using Hp. intros M N. start. double es H. apply fixed_out1. apply (rigid2_of w1 w2 Hw1 Hw2 m M N); assumption. Qed.
Lemma tight_hash m h iv n : (forall x y, mono (m x y)) -> no_freedom2 m -> tight (c_hash m h iv n).
Proof using Hp. intros M N. start. apply fixed_out1. apply (fixed_merkle_damgard w1 w2 Hw1 Hw2); [apply rigid2_of; assumption|assumption]. Qed.
Lemma tight_root m h n : (forall x y, mono (m x y)) -> no_freedom2 m -> tight (c_root m h n).
Proof using Hp.
  intros M N. start. destruct es as [|leaf r]; [apply fixed_lift; discriminate|]. inversion H; subst. apply fixed_lift_bind. intros p E.
  unfold merkle_path_new, oassert in E. destruct (_ =? _)%nat; cbn [obind] in E; [|discriminate]. injection E as <-.
  apply fixed_out1, (fixed_merkle_root Hp w1 w2 Hw1 Hw2); [apply rigid2_of; assumption|assumption|apply sames_firstn; assumption|apply sames_skipn; assumption].
Qed.
Lemma tight_member m h n : (forall x y, mono (m x y)) -> no_freedom2 m -> tight (c_member m h n).
Proof using Hp.
  intros M N. start. destruct es as [|root [|leaf r]]; try (apply fixed_lift; discriminate). inversion H as [|? ? ? H']; subst. inversion H'; subst. apply fixed_lift_bind. intros p E.
  unfold merkle_path_new, oassert in E. destruct (_ =? _)%nat; cbn [obind] in E; [|discriminate]. injection E as <-.
  eapply fixed_out0, (fixed_merkle_membership Hp w1 w2 Hw1 Hw2); [apply rigid2_of; assumption|assumption|apply sames_firstn; assumption|apply sames_skipn; assumption].
Qed.
Lemma tight_lanes m n f : (forall xs, mono (m xs)) -> no_freedoml m -> tight (c_lanes m n f).
Proof using Hp. intros M N. start. apply (rigidl_of w1 w2 Hw1 Hw2 m M N), H. Qed.
Lemma tight_sponge s p n outputs : (forall xs, mono (mp_permute (sp_perm s) xs)) -> no_freedoml (mp_permute (sp_perm s)) -> tight (c_sponge s p n outputs).
Proof using Hp. intros M N. start. apply (fixed_sponge Hp); [apply rigidl_of; assumption|exact H]. Qed.
Lemma tight_point C : tight (c_point C).
Proof using Hp.
  start. double es H. eapply fixed_out0 with (Q := fun _ => True). unfold ed_expr_new.
  eapply fixed_bind; [apply (fixed_product Hp); assumption|intro; mono|]. intros xx Hxx. eapply fixed_bind; [apply (fixed_product Hp); assumption|intro; mono|]. intros yy Hyy.
  eapply fixed_bind; [apply (fixed_product Hp); assumption|intro; mono|]. intros xxyy Hxy. eapply fixed_bind; [apply fixed_assert_equal|intro; mono|]. intros _ _. apply fixed_ret. exact I.
Qed.

Definition all_tight (p : circuit) : Prop := forall c is, In (c, is) p -> tight c.
Lemma sames_pick w1 w2 es is args : pick es is = Some args -> sames w1 w2 es -> sames w1 w2 args.
Proof using.
  revert args. induction is as [|i is IH]; intros args E H; cbn [pick] in E; [injection E as <-; constructor|].
  destruct (nth_error es i) as [e|] eqn:Ee; [|discriminate]. destruct (pick es is) as [r|] eqn:Er; [|discriminate]. injection E as <-.
  constructor; [|apply IH; auto]. apply nth_error_In in Ee. unfold sames in H. rewrite Forall_forall in H. apply H, Ee.
Qed.
Lemma fixed_construct w1 w2 : wf_witness w1 -> wf_witness w2 -> forall p, all_correct p -> all_tight p -> forall t t' es, typing p t = Some t' ->
  fits t (map (ev w1) es) -> sames w1 w2 es -> fixed w1 w2 (construct p es) (sames w1 w2).
Proof using Hp.
  intros Hw1 Hw2. induction p as [|[c is] p IH]; intros HC HT t t' es T Ft H; cbn [typing construct] in *; [apply fixed_ret, H|].
  apply all_correct_cons in HC. destruct HC as [Hc HC]. destruct (pick t is) as [have|] eqn:E; [|discriminate].
  destruct (allows (c_in c) have) eqn:A; [|discriminate]. destruct (pick_2 _ _ _ _ Ft _ E) as (args & Ea & Fa).
  apply fixed_lift_bind. intros xs Ex. unfold ounwrap in Ex. destruct (pick es is) as [ys|] eqn:Ey; [|discriminate]. injection Ex as ->.
  pose proof (pick_map (ev w1) es is) as PM. rewrite Ey in PM. cbn [option_map] in PM. rewrite PM in Ea. injection Ea as <-.
  assert (Fi : fits (c_in c) (map (ev w1) xs)) by (eapply allows_fits; eassumption). pose proof (sames_pick _ _ _ _ _ Ey H) as Sx.
  eapply fixed_bind.
  - apply fixed_sound with (P2 := fun _ => True); [apply (HT c is); [left; reflexivity|assumption|assumption|exact Fi|exact Sx]|apply (k_sound c Hc w1 xs Hw1 Fi)|apply sound_true].
  - intro. apply mono_construct, HC.
  - intros new (Sn & R & _). eapply IH; [exact HC|intros c' is' I; apply (HT c' is'); right; exact I|exact T| |].
    + rewrite map_app. apply fits_app; [exact Ft|]. exact (k_run c Hc _ _ Fi R).
    + apply Forall_app. split; assumption.
Qed.
Lemma tight_circuit p t t' outs to : all_correct p -> all_tight p -> typing p t = Some t' -> tight (c_circuit p t outs to).
Proof using Hp.
  intros HC HT Ty w1 w2 Hw1 Hw2 es T H. cbn [c_circuit c_call c_in] in *. eapply fixed_bind; [eapply fixed_construct; eassumption|intro; mono|]. intros all Ha.
  apply fixed_lift. intros r E. unfold ounwrap in E. destruct (pick all outs) as [ys|] eqn:Ey; [|discriminate]. injection E as ->. eapply sames_pick; eassumption.
Qed.
End Tight.
