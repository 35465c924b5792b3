(** Soundness logic: what every satisfying witness must fulfil after a gadget call. *)
From Coq Require Import ZArith List Bool Arith Lia Znumtheory.
From Verif Require Import Base FieldM FieldP ExprM BuilderM GadgetsM Spec ExprP BitsP MonoP.
Import ListNotations.
Open Scope Z_scope.

Section Logic.
Context {F : Field}.

(** If the call succeeds and [w] satisfies the resulting constraints then the result fulfils [Q]. *)
Definition sound (w : witness) {A} (m : B A) (Q : A -> Prop) : Prop :=
  forall b a b', m b = Ok (a, b') -> sat w b' -> Q a.

Lemma sat_extends w b b' : extends b b' -> sat w b' -> sat w b.
Proof.
  intros (_ & [cs E] & _). unfold sat. rewrite E, Forall_app. tauto.
Qed.

Lemma sound_ret w {A} (a : A) (Q : A -> Prop) : Q a -> sound w (bret a) Q.
Proof. intros H b a' b' E S. inversion E; subst. auto. Qed.

Lemma sound_lift w {A} (o : outcome A) (Q : A -> Prop) :
  (forall a, o = Ok a -> Q a) -> sound w (blift o) Q.
Proof.
  intros H b a b' E S. unfold blift in E. destruct o; inversion E; subst. auto.
Qed.

Lemma sound_bind w {A C} (m : B A) (k : A -> B C) (Q : A -> Prop) (R : C -> Prop) :
  sound w m Q -> (forall a, mono (k a)) -> (forall a, Q a -> sound w (k a) R) ->
  sound w (bbind m k) R.
Proof.
  intros H1 HM H2 b c b' E S. unfold bbind in E.
  destruct (m b) as [[a b1]| |] eqn:E1; try discriminate.
  apply (H2 a) with (b := b1) (b' := b'); auto. apply (H1 b a b1); auto.
  eapply sat_extends; [|exact S]. eapply HM; eauto.
Qed.

Lemma sound_weaken w {A} (m : B A) (Q R : A -> Prop) :
  sound w m Q -> (forall a, Q a -> R a) -> sound w m R.
Proof. unfold sound. eauto. Qed.

Lemma sound_and w {A} (m : B A) (Q R : A -> Prop) :
  sound w m Q -> sound w m R -> sound w m (fun a => Q a /\ R a).
Proof. unfold sound. eauto. Qed.

Lemma sound_true w {A} (m : B A) : sound w m (fun _ => True).
Proof. unfold sound. auto. Qed.

Lemma sound_bmap w {A C} (f : A -> B C) (Q : A -> C -> Prop) l :
  (forall a, mono (f a)) -> (forall a, In a l -> sound w (f a) (Q a)) ->
  sound w (bmap f l) (fun r => Forall2 Q l r).
Proof.
  intro HM. induction l as [|a l IH]; intro H; simpl.
  - apply sound_ret. constructor.
  - eapply sound_bind; [apply H; left; reflexivity| |].
    + intro. apply mono_bind; [apply mono_bmap, HM|intro; apply mono_ret].
    + intros c Hc. eapply sound_bind; [apply IH; intros; apply H; right; assumption| |].
      * intro. apply mono_ret.
      * intros cs Hcs. apply sound_ret. constructor; auto.
Qed.

Lemma sound_bfold_seq w {S} (f : S -> nat -> B S) (I : nat -> S -> Prop) n :
  (forall s i, mono (f s i)) ->
  forall k s, I k s ->
  (forall i s, (k <= i < k + n)%nat -> I i s -> sound w (f s i) (I (Datatypes.S i))) ->
  sound w (bfold f (seq k n) s) (I (k + n)%nat).
Proof.
  intro HM. induction n as [|n IH]; intros k s H0 Hs; simpl.
  - rewrite Nat.add_0_r. apply sound_ret. exact H0.
  - eapply sound_bind; [apply Hs; [lia|exact H0]| |].
    + intro. apply mono_bfold, HM.
    + intros s' Hs'. rewrite <- Nat.add_succ_comm. apply IH; auto.
      intros i s'' Hi HI. apply Hs; [lia|exact HI].
Qed.

Lemma sound_assert_product w x y z :
  sound w (assert_product x y z) (fun _ => (ev w x * ev w y) mod order = ev w z).
Proof.
  intros b a b' E S. inversion E; subst. unfold sat in S. simpl in S.
  apply Forall_app in S. destruct S as [_ S]. inversion S; subst. assumption.
Qed.

End Logic.

(** Drop inner reductions, products first. *)
Ltac zmod := repeat first
  [ rewrite Zmult_mod_idemp_l | rewrite Zmult_mod_idemp_r
  | rewrite Zplus_mod_idemp_l | rewrite Zplus_mod_idemp_r
  | rewrite Zminus_mod_idemp_l | rewrite Zminus_mod_idemp_r ].

(** Symbolic execution of a call. *)
Ltac sbind0 := eapply sound_bind; [ | intro; mono | ].
Tactic Notation "sbind" tactic(t) := eapply sound_bind; [ solve [t] | intro; mono | cbv beta ].
(** Reduce to a weaker postcondition of a known call. *)
Tactic Notation "slast" tactic(t) := eapply sound_weaken; [ solve [t] | cbv beta ].

Section Basic.
Context {F : Field} (Hp : prime order) (w : witness) (Hw : wf_witness w).

Let Hord : 2 <= order := prime_ge2 Hp.
Local Lemma w1 : w ONE = 1. Proof using Hw. apply Hw. Qed.
Local Lemma wi k : infield (w k). Proof using Hw. apply Hw. Qed.

Lemma fsub_mod x y : fsub x y = (x - y) mod order.
Proof using Hp.
  apply feqm_eq; [apply infield_sub, Hord|apply infield_mod, Hord|].
  rewrite fsub_eqm, feqm_mod by apply Hord. reflexivity.
Qed.

Lemma evi e : infield (ev w e).
Proof using Hp. apply ev_infield, Hord. Qed.
Lemma ev_mod e : ev w e mod order = ev w e.
Proof using Hp. apply Z.mod_small. apply evi. Qed.
Lemma ev_add_mod a b : ev w (e_add a b) = (ev w a + ev w b) mod order.
Proof using Hp. apply ev_add, Hord. Qed.
Lemma ev_sub_mod a b : ev w (e_sub a b) = (ev w a - ev w b) mod order.
Proof using Hp. rewrite ev_sub by apply Hord. apply fsub_mod. Qed.
Lemma ev_scale_mod a c : ev w (e_scale a c) = (ev w a * c) mod order.
Proof using Hp. apply ev_scale, Hord. Qed.
Lemma ev_one_ : ev w e_one = 1.
Proof using Hp Hw. apply ev_one; [apply Hord|apply w1]. Qed.
Lemma ev_zero_ : ev w e_zero = 0.
Proof using Hp. apply ev_zero, Hord. Qed.
Lemma ev_wire_ k : ev w (e_wire k) = w k.
Proof using Hp Hw. apply ev_wire; [apply Hord|apply wi]. Qed.

Lemma mod_small_1 : 1 mod order = 1.
Proof using Hp. apply Z.mod_small. pose proof Hord. lia. Qed.
Lemma mod_small_0 : 0 mod order = 0.
Proof using Hp. apply Z.mod_0_l. pose proof Hord. lia. Qed.

(** modular cancellation facts *)
Lemma mod_mul_zero a b : infield a -> infield b -> (a * b) mod order = 0 -> a = 0 \/ b = 0.
Proof using Hp. intros. apply fmul_integral; auto. Qed.

Lemma mod_sub_zero a b : infield a -> infield b -> (a - b) mod order = 0 -> a = b.
Proof using Hp.
  intros Ha Hb H. apply feqm_eq; auto. unfold feqm.
  apply Z.mod_divide in H; [|pose proof Hord; lia]. destruct H as [q H].
  replace a with (b + q * order) by lia. apply Z_mod_plus_full.
Qed.

Lemma snd_assert_boolean x :
  sound w (assert_boolean x) (fun r => r = x /\ is_bit (ev w x)).
Proof using Hp Hw.
  unfold assert_boolean. sbind (apply sound_assert_product).
  intros _ H. apply sound_ret. split; auto.
  rewrite ev_sub_mod, ev_one_, ev_zero_ in H.
  apply mod_mul_zero in H; [|apply evi|apply infield_mod, Hord].
  destruct H as [H|H]; [left; exact H|right].
  apply mod_sub_zero in H; auto; [apply evi|apply infield_1, Hord].
Qed.

Lemma snd_assert_equal x y : sound w (assert_equal x y) (fun _ => ev w x = ev w y).
Proof using Hp Hw.
  eapply sound_weaken; [apply sound_assert_product|]. cbv beta. intros _ H.
  rewrite ev_one_, Z.mul_1_r, ev_mod in H. exact H.
Qed.

Lemma snd_assert_zero x : sound w (assert_zero x) (fun _ => ev w x = 0).
Proof using Hp Hw.
  eapply sound_weaken; [apply snd_assert_equal|]. cbv beta. intros _ H. rewrite H. apply ev_zero_.
Qed.
Lemma snd_assert_true x : sound w (assert_true x) (fun _ => ev w x = 1).
Proof using Hp Hw.
  eapply sound_weaken; [apply snd_assert_equal|]. cbv beta. intros _ H. rewrite H. apply ev_one_.
Qed.
Lemma snd_assert_false x : sound w (assert_false x) (fun _ => ev w x = 0).
Proof using Hp Hw.
  eapply sound_weaken; [apply snd_assert_equal|]. cbv beta. intros _ H. rewrite H. apply ev_zero_.
Qed.

Lemma snd_boolean_wire : sound w boolean_wire (fun k => is_bit (w k)).
Proof using Hp Hw.
  unfold boolean_wire. sbind (apply sound_true). intros k _.
  sbind (apply snd_assert_boolean). intros _ [_ H]. apply sound_ret.
  rewrite ev_wire_ in H. exact H.
Qed.

Lemma Forall2_forall_r {A C} (Q : C -> Prop) (l : list A) r :
  Forall2 (fun _ c => Q c) l r -> Forall Q r /\ length r = length l.
Proof. induction 1; simpl; intuition. Qed.

Lemma snd_binary_wire n :
  sound w (binary_wire n) (fun ws => length ws = n /\ bin_ok w (bin_of_wires ws)).
Proof using Hp Hw.
  unfold binary_wire. eapply sound_weaken.
  - apply sound_bmap with (Q := fun _ k => is_bit (w k)); [intro; mono|].
    intros _ _. apply snd_boolean_wire.
  - simpl. intros ws H. apply Forall2_forall_r in H. destruct H as [H L].
    rewrite seq_length in L. split; auto. unfold bin_ok, bin_of_wires. rewrite Forall_map.
    eapply Forall_impl; [|exact H]. intros k Hk. rewrite ev_wire_. exact Hk.
Qed.

Lemma snd_product x y : sound w (product x y) (fun r => ev w r = (ev w x * ev w y) mod order).
Proof using Hp Hw.
  unfold product. destruct (e_as_constant x) as [c|] eqn:Ex.
  - apply sound_ret. rewrite ev_scale_mod.
    pose proof (ev_as_constant Hord w x c w1 Ex) as E. unfold feqm in E.
    rewrite (Z.mul_comm (ev w x)). rewrite <- (Zmult_mod_idemp_r (ev w x)), E, Zmult_mod_idemp_r.
    reflexivity.
  - destruct (e_as_constant y) as [c|] eqn:Ey.
    + apply sound_ret. rewrite ev_scale_mod.
      pose proof (ev_as_constant Hord w y c w1 Ey) as E. unfold feqm in E.
      rewrite <- (Zmult_mod_idemp_r (ev w y)), E, Zmult_mod_idemp_r. reflexivity.
    + sbind (apply sound_true). intros k _.
      sbind (apply sound_assert_product). intros _ H.
      sbind (apply sound_true). intros _ _. apply sound_ret. symmetry. exact H.
Qed.

Lemma snd_inverse x :
  sound w (inverse x) (fun r => (ev w x * ev w r) mod order = 1 /\ ev w x <> 0).
Proof using Hp Hw.
  unfold inverse. sbind (apply sound_true). intros k _.
  sbind (apply sound_assert_product). intros _ H.
  sbind (apply sound_true). intros _ _. apply sound_ret. rewrite ev_one_ in H. split; auto.
  intro E. rewrite E, Z.mul_0_l, mod_small_0 in H. lia.
Qed.

Lemma snd_assert_nonzero x : sound w (assert_nonzero x) (fun _ => ev w x <> 0).
Proof using Hp Hw.
  unfold assert_nonzero. sbind (apply snd_inverse). intros r [_ H]. apply sound_ret. exact H.
Qed.

Lemma ev_sub_zero x y : ev w (e_sub x y) = 0 <-> ev w x = ev w y.
Proof using Hp.
  rewrite ev_sub_mod. split; intro H.
  - apply mod_sub_zero in H; auto; apply evi.
  - rewrite H, Z.sub_diag. apply mod_small_0.
Qed.

Lemma snd_assert_nonequal x y : sound w (assert_nonequal x y) (fun _ => ev w x <> ev w y).
Proof using Hp Hw.
  eapply sound_weaken; [apply snd_assert_nonzero|]. cbv beta. intros _ H E. apply H.
  apply ev_sub_zero. exact E.
Qed.

Lemma snd_nonzero x :
  sound w (nonzero x) (fun r => ev w r = if ev w x =? 0 then 0 else 1).
Proof using Hp Hw.
  unfold nonzero. sbind (apply sound_true). intros y _.
  sbind (apply sound_true). intros m _.
  sbind (apply sound_assert_product). intros _ H1.
  sbind (apply sound_assert_product). intros _ H2.
  sbind (apply sound_true). intros _ _. apply sound_ret.
  rewrite ev_sub_mod, ev_one_, ev_zero_ in H2.
  destruct (Z.eqb_spec (ev w x) 0) as [E|E].
  - rewrite E, Z.mul_0_l, mod_small_0 in H1. auto.
  - apply mod_mul_zero in H2; [|apply infield_mod, Hord|apply evi].
    destruct H2 as [H2|H2]; [|contradiction].
    apply mod_sub_zero in H2; [auto|apply infield_1, Hord|apply evi].
Qed.

Lemma ev_not_bit x : is_bit (ev w x) -> ev w (e_sub e_one x) = 1 - ev w x.
Proof using Hp Hw.
  intro H. rewrite ev_sub_mod, ev_one_. apply Z.mod_small. pose proof Hord.
  destruct H as [H|H]; rewrite H; lia.
Qed.

Lemma snd_not x : is_bit (ev w x) -> sound w (b_not x) (fun r => ev w r = 1 - ev w x).
Proof using Hp Hw. intro H. apply sound_ret. apply ev_not_bit. exact H. Qed.

Lemma is_bit_infield z : is_bit z -> infield z.
Proof using Hp. pose proof Hord. unfold infield. intros [->| ->]; lia. Qed.

Lemma snd_and x y : is_bit (ev w x) -> is_bit (ev w y) ->
  sound w (b_and x y) (fun r => ev w r = ev w x * ev w y).
Proof using Hp Hw.
  intros Hx Hy. eapply sound_weaken; [apply snd_product|]. cbv beta. intros r H. rewrite H.
  apply Z.mod_small. pose proof Hord. destruct Hx as [->| ->], Hy as [->| ->]; lia.
Qed.

Lemma snd_or x y : is_bit (ev w x) -> is_bit (ev w y) ->
  sound w (b_or x y) (fun r => ev w r = Z.max (ev w x) (ev w y)).
Proof using Hp Hw.
  intros Hx Hy. unfold b_or. sbind (apply snd_product). simpl. intros r H. apply sound_ret.
  rewrite ev_sub_mod, ev_add_mod, H, Zminus_mod_idemp_l, Zminus_mod_idemp_r.
  pose proof Hord. destruct Hx as [->| ->], Hy as [->| ->]; apply Z.mod_small; lia.
Qed.

Lemma snd_xor x y : is_bit (ev w x) -> is_bit (ev w y) ->
  sound w (b_xor x y) (fun r => ev w r = (if ev w x =? ev w y then 0 else 1)).
Proof using Hp Hw.
  intros Hx Hy. unfold b_xor. sbind (apply snd_product). simpl. intros r H.
  sbind0; [apply sound_lift with (Q := fun s => s = e_scale r 2)|].
  - intros s Es. destruct (Z_lt_dec 2 order) as [L|L].
    + rewrite e_scale_u128_spec in Es; [congruence|apply Hord|unfold infield; lia].
    + (* order 2: the u128 conversion fails unless the expression is empty *)
      unfold e_scale_u128 in Es. destruct r as [|kv r]; simpl in *.
      * inversion Es. reflexivity.
      * unfold fmul_u128, el_from in Es. destruct (Z.ltb_spec 2 order); [lia|]. simpl in Es. discriminate.
  - intros s ->. apply sound_ret.
    rewrite ev_sub_mod, ev_add_mod, ev_scale_mod, H.
    zmod. pose proof Hord.
    destruct Hx as [->| ->], Hy as [->| ->]; apply Z.mod_small; simpl; lia.
Qed.

Lemma snd_zero x : sound w (g_zero x) (fun r => ev w r = if ev w x =? 0 then 1 else 0).
Proof using Hp Hw.
  unfold g_zero. sbind (apply snd_nonzero). simpl. intros r H.
  eapply sound_weaken; [apply snd_not|].
  - rewrite H. destruct (ev w x =? 0); [left|right]; reflexivity.
  - simpl. intros s ->. rewrite H. destruct (ev w x =? 0); reflexivity.
Qed.

Lemma snd_equal x y : sound w (g_equal x y) (fun r => ev w r = if ev w x =? ev w y then 1 else 0).
Proof using Hp Hw.
  eapply sound_weaken; [apply snd_zero|]. cbv beta. intros r ->.
  destruct (Z.eqb_spec (ev w (e_sub x y)) 0) as [E|E], (Z.eqb_spec (ev w x) (ev w y)) as [E'|E'];
    auto; rewrite ev_sub_zero in E; contradiction.
Qed.

(** selection for an arbitrary value of the condition *)
Lemma snd_selection_raw c x y :
  sound w (selection c x y)
    (fun r => ev w r = (ev w y + ev w c * (ev w x - ev w y)) mod order).
Proof using Hp Hw.
  unfold selection. sbind (apply snd_product). simpl. intros r H. apply sound_ret.
  rewrite ev_add_mod, H, ev_sub_mod. zmod. reflexivity.
Qed.

Lemma snd_selection c x y : is_bit (ev w c) ->
  sound w (selection c x y) (fun r => ev w r = if ev w c =? 1 then ev w x else ev w y).
Proof using Hp Hw.
  intro Hc. eapply sound_weaken; [apply snd_selection_raw|]. cbv beta. intros r ->.
  destruct Hc as [->| ->].
  - rewrite Z.mul_0_l, Z.add_0_r. apply ev_mod.
  - rewrite Z.mul_1_l, Z.eqb_refl. transitivity (ev w x mod order); [f_equal; lia|apply ev_mod].
Qed.

Lemma snd_inverse_or_zero_nz x :
  sound w (inverse_or_zero x) (fun r => ev w x <> 0 -> (ev w x * ev w r) mod order = 1).
Proof using Hp Hw.
  unfold inverse_or_zero. sbind (apply sound_true). intros k _.
  sbind (apply snd_nonzero). intros nz Hn.
  sbind (apply sound_assert_product). intros _ H.
  sbind (apply sound_true). intros _ _. apply sound_ret. intro E.
  rewrite H, Hn. destruct (Z.eqb_spec (ev w x) 0); [contradiction|reflexivity].
Qed.

Lemma snd_quotient x y :
  sound w (quotient x y) (fun r => ev w y <> 0 /\ (ev w r * ev w y) mod order = ev w x).
Proof using Hp Hw.
  unfold quotient. sbind (apply snd_inverse). intros i [Hi Hn].
  eapply sound_weaken; [apply snd_product|]. cbv beta. intros r H. split; auto.
  rewrite H, Zmult_mod_idemp_l, <- Z.mul_assoc, (Z.mul_comm (ev w i)).
  rewrite <- Zmult_mod_idemp_r, Hi, Z.mul_1_r. apply ev_mod.
Qed.

(** square-and-multiply invariant *)
Lemma snd_exponentiation x e : 0 <= e ->
  sound w (exponentiation x e) (fun r => ev w r = (ev w x ^ e) mod order).
Proof using Hp Hw.
  intro He. unfold exponentiation.
  sbind0.
  - apply sound_bfold_seq with (I := fun i (st : expr * expr) =>
        ev w (fst st) = (ev w x ^ (e mod 2 ^ Z.of_nat i)) mod order /\
        ((0 < i)%nat -> ev w (snd st) = (ev w x ^ (2 ^ (Z.of_nat i - 1))) mod order)).
    + intros. mono.
    + simpl. rewrite Z.mod_1_r, Z.pow_0_r, ev_one_, mod_small_1. split; [reflexivity|lia].
    + intros i [pr sq] Hi [H1 H2]. simpl fst in *. simpl snd in *.
      eapply sound_bind with (Q := fun s => ev w s = (ev w x ^ (2 ^ Z.of_nat i)) mod order);
        [|intro; mono|].
      * destruct (Nat.eqb_spec i 0) as [->|Ni].
        -- apply sound_ret. change (2 ^ Z.of_nat 0) with 1. rewrite Z.pow_1_r. symmetry. apply ev_mod.
        -- eapply sound_weaken; [apply snd_product|]. cbv beta. intros s ->.
           rewrite H2 by lia. rewrite <- Zmult_mod.
           rewrite <- Z.pow_add_r by (apply Z.pow_nonneg; lia). f_equal. f_equal.
           replace (Z.of_nat i) with (Z.succ (Z.of_nat i - 1)) at 3 by lia.
           rewrite Z.pow_succ_r by lia. lia.
      * intros s Hs.
        assert (Em : e mod 2 ^ Z.of_nat (S i) = e mod 2 ^ Z.of_nat i
                     + 2 ^ Z.of_nat i * b2z (el_bit e i)).
        { rewrite pow2_S, Z.mul_comm, Z.rem_mul_r by (pose proof (pow2_pos i); lia).
          f_equal. f_equal. unfold el_bit, zbit. rewrite <- Z.testbit_spec' by lia.
          destruct (Z.testbit e (Z.of_nat i)); reflexivity. }
        eapply sound_bind with
          (Q := fun pr' => ev w pr' = (ev w x ^ (e mod 2 ^ Z.of_nat (S i))) mod order);
          [|intro; mono|].
        -- destruct (el_bit e i).
           ++ eapply sound_weaken; [apply snd_product|]. cbv beta. intros pr' ->.
              rewrite H1, Hs, <- Zmult_mod, Em. simpl b2z. rewrite Z.mul_1_r.
              rewrite Z.pow_add_r; [reflexivity| |apply Z.pow_nonneg; lia].
              apply Z.mod_pos_bound, pow2_pos.
           ++ apply sound_ret. rewrite Em. simpl b2z. rewrite Z.mul_0_r, Z.add_0_r. exact H1.
        -- intros pr' Hpr'. apply sound_ret. simpl fst. simpl snd. split; auto.
           intros _. rewrite Hs. do 3 f_equal. lia.
  - simpl. intros [pr sq] [H _]. apply sound_ret. simpl fst in *.
    rewrite H. do 2 f_equal. apply Z.mod_small. split; auto.
    apply (zbits_spec e He).
Qed.

(** splitting *)
Lemma snd_swrc x n : 2 < order \/ (n <= max_bits)%nat -> sound w (split_without_range_check x n)
  (fun r => length r = n /\ bin_ok w r /\ ev w x = bin_val w r mod order).
Proof using Hp Hw.
  intro H2. unfold split_without_range_check.
  sbind (apply snd_binary_wire). intros ws [Hl Hb].
  assert (Hl' : length (bin_of_wires ws) = n) by (unfold bin_of_wires; rewrite map_length; exact Hl).
  sbind0; [apply sound_lift with (Q := fun e => ev w e = bin_val w (bin_of_wires ws) mod order)|cbv beta].
  - intros e He. destruct H2 as [H2|H2]; [apply (join_inv Hord _ _ He H2)|].
    destruct (join_gen Hord (bin_of_wires ws)) as (e' & He' & Hv & _); [lia|].
    rewrite He in He'. inversion He'. subst. apply Hv.
  - intros e He. sbind (apply snd_assert_equal). intros _ Hx.
    sbind (apply sound_true). intros _ _. apply sound_ret. repeat split; auto. congruence.
Qed.

Lemma snd_split_bounded x n : sound w (split_bounded x n)
  (fun r => (n < max_bits)%nat /\ length r = n /\ bin_ok w r /\ ev w x = bin_val w r).
Proof using Hp Hw.
  unfold split_bounded.
  sbind0; [apply sound_lift with (Q := fun _ => (n < max_bits)%nat)|cbv beta].
  - intros [] E. unfold oassert in E. destruct (Nat.ltb_spec n max_bits); [assumption|discriminate].
  - intros _ Hn. eapply sound_weaken; [apply snd_swrc; lia|]. cbv beta.
    intros r (Hl & Hb & He). repeat split; auto. rewrite He. apply Z.mod_small.
    pose proof (bin_val_bound w r Hb). pose proof (pow2_lt_order Hord n Hn). rewrite Hl in *. lia.
Qed.

Lemma snd_split_amb x : sound w (split_allowing_ambiguity x)
  (fun r => length r = max_bits /\ bin_ok w r /\
            (bin_val w r = ev w x \/ bin_val w r = ev w x + order)).
Proof using Hp Hw.
  eapply sound_weaken; [apply snd_swrc; lia|]. cbv beta.
  intros r (Hl & Hb & He). repeat split; auto.
  pose proof (bin_val_bound w r Hb) as Bd. rewrite Hl in Bd. pose proof (pow2_double Hord).
  destruct (Z_lt_dec (bin_val w r) order).
  - left. rewrite He. symmetry. apply Z.mod_small. lia.
  - right. rewrite He. replace (bin_val w r) with (bin_val w r - order + 1 * order) at 2 by ring.
    rewrite Z_mod_plus_full, Z.mod_small; lia.
Qed.

End Basic.
