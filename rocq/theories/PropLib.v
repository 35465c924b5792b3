(** Bridges from the proof logics (soundness triples, completeness triples) to the statement shapes
    of Spec.v. *)
From Coq Require Import ZArith List Bool Arith Lia Znumtheory Permutation.
From Verif Require Import Base FieldM FieldP ExprM BuilderM GadgetsM Spec ExprP BitsP MonoP SoundP
  CmpP GadgetSoundP HonestP CompleteP CmpCompleteP GadgetCompleteP.
Import ListNotations.
Open Scope Z_scope.

Section PropLib.
Context {F : Field} (Hp : prime order).
Let Hord : 2 <= order := prime_ge2 Hp.

Lemma to_call {A} (m : B A) (R : witness -> A -> Prop) :
  (forall w, wf_witness w -> sound w m (R w)) -> sound_call m R.
Proof using. intros H b r b' w E Hw Hs. exact (H w Hw b r b' E Hs). Qed.

(** initial state of a run *)
Definition s0 (vals : list Z) : st := (S (length vals), input_witness vals).

Lemma has_input vals x : on_inputs vals x -> has (s0 vals) x (ev (input_witness vals) x).
Proof using. intro H. split; [|reflexivity]. intros k Hk. simpl. specialize (H k Hk). simpl in H. lia. Qed.

Lemma hasl_input vals xs : on_inputs_all vals xs -> hasl (s0 vals) xs (map (ev (input_witness vals)) xs).
Proof using.
  intro H. unfold hasl. induction H; simpl; constructor; [apply has_input; assumption|assumption].
Qed.

Lemma hasll_input vals xss : Forall (on_inputs_all vals) xss ->
  Forall2 (hasl (s0 vals)) xss (map (map (ev (input_witness vals))) xss).
Proof using.
  intro H. induction H; simpl; constructor; [apply hasl_input; assumption|assumption].
Qed.

Lemma wf_input vals : good_inputs vals -> wf_witness (input_witness vals).
Proof using Hp.
  intro Hv. split; [reflexivity|]. intros [|k]; simpl; [lia|].
  destruct (le_lt_dec (length vals) k); [rewrite nth_overflow by assumption; lia|].
  unfold good_inputs in Hv. rewrite Forall_forall in Hv. apply Hv, nth_In. assumption.
Qed.

Lemma to_runs {A} vals (m : B A) (Q : A -> st -> Prop) (R : A -> values -> Prop) : good_inputs vals ->
  comp (fun k => (k <= length vals)%nat) [] (s0 vals) m (done [] Q) ->
  (forall r s v, Q r s -> ext (s0 vals) s -> (forall k, (k < nx s)%nat -> m_get k v = Some (wt s k)) -> R r v) ->
  runs vals m R.
Proof using Hp.
  intros Hv H HR v0 I. destruct (complete_run Hp vals m Q Hv H v0 I) as (r & b' & v & s & E & Ex & HQ & X & G).
  exists (seq 1 (length vals)), (mkB (S (length vals)) [] []), r, b', v.
  split; [apply inputs_builder|]. split; [exact E|]. split; [exact Ex|]. split; [|eauto].
  intros k x Hk. destruct I as (I1 & I2 & I3). destruct X as [X1 X2]. cbn [s0 fst snd] in X1, X2.
  destruct (le_lt_dec k (length vals)) as [L|L]; [|rewrite I3 in Hk by assumption; discriminate].
  rewrite G by lia. rewrite X2 by lia. rewrite <- Hk. symmetry.
  destruct k; [exact I1|]. apply I2. lia.
Qed.

Lemma to_runs1 vals (m : B expr) c : good_inputs vals ->
  comp (fun k => (k <= length vals)%nat) [] (s0 vals) m (done [] (fun r s => has s r c)) ->
  runs vals m (fun r v => e_evaluate v r = Ok c).
Proof using Hp.
  intros Hv H. eapply to_runs; [exact Hv|exact H|]. cbv beta. intros r s v Hr _ G. eapply (has_run Hp); eauto.
Qed.

Lemma to_runs0 {A} vals (m : B A) : good_inputs vals ->
  comp (fun k => (k <= length vals)%nat) [] (s0 vals) m (done [] (fun _ _ => True)) ->
  runs vals m (fun _ _ => True).
Proof using Hp. intros Hv H. eapply to_runs; [exact Hv|exact H|]. auto. Qed.

(** an assertion that leaves the state unchanged *)
Lemma to_runs_assert {A} vals (m : B A) Q : good_inputs vals ->
  comp (fun k => (k <= length vals)%nat) [] (s0 vals) m (fun a P' s' => Q a /\ P' = [] /\ s' = s0 vals) ->
  runs vals m (fun a _ => Q a).
Proof using Hp.
  intros Hv H. eapply to_runs with (Q := fun a _ => Q a); [exact Hv| |auto].
  intros b Hb. destruct (H b Hb) as (a & b' & P' & s' & E & Ho & X & Q0 & -> & ->).
  exists a, b', [], (s0 vals). split; [exact E|]. split; [exact Ho|]. split; [exact X|]. split; auto.
Qed.

Lemma hasl_evaluate s v es cs : (forall k, (k < nx s)%nat -> m_get k v = Some (wt s k)) -> hasl s es cs ->
  omap (e_evaluate v) es = Ok cs.
Proof using Hp.
  intros G H. induction H as [|e c es cs He _ IH]; simpl; [reflexivity|].
  rewrite (has_run Hp s v e c G He). simpl. rewrite IH. reflexivity.
Qed.

Lemma bin_evaluate_aux s v : (forall k, (k < nx s)%nat -> m_get k v = Some (wt s k)) ->
  forall es cs, hasl s es cs -> Forall is_bit cs -> forall k acc,
  ofold (fun s ib => let! b := be_evaluate v (snd ib) in Ok (if b : bool then s + 2 ^ Z.of_nat (fst ib) else s))
        (combine (seq k (length es)) es) acc = Ok (acc + 2 ^ Z.of_nat k * bits_val cs).
Proof using Hp.
  intros G es cs H. induction H as [|e c es cs He _ IH]; intros Hb k acc.
  - simpl. f_equal. lia.
  - apply Forall_cons_iff in Hb. destruct Hb as [Hc Hb]. cbn [length seq combine ofold snd fst bits_val].
    unfold be_evaluate at 1. rewrite (has_run Hp s v e c G He). cbn [obind].
    assert (E : 2 ^ Z.of_nat (S k) = 2 * 2 ^ Z.of_nat k) by (rewrite Nat2Z.inj_succ, Z.pow_succ_r by lia; reflexivity).
    destruct Hc as [-> | ->]; cbn -[Z.mul Z.add Z.pow Z.of_nat]; rewrite IH by assumption; f_equal; rewrite E; ring.
Qed.

Lemma hasl_bin_evaluate s v es cs : (forall k, (k < nx s)%nat -> m_get k v = Some (wt s k)) -> hasl s es cs ->
  Forall is_bit cs -> bin_evaluate v es = Ok (bits_val cs).
Proof using Hp.
  intros G H Hb. unfold bin_evaluate, enumerate. rewrite (bin_evaluate_aux s v G es cs H Hb). f_equal.
  change (2 ^ Z.of_nat 0) with 1. lia.
Qed.

Lemma to_runs_bin vals (m : B binexpr) cs (Q : binexpr -> Prop) : good_inputs vals -> Forall is_bit cs ->
  comp (fun k => (k <= length vals)%nat) [] (s0 vals) m (done [] (fun r s => hasl s r cs)) ->
  (forall r, length r = length cs -> Q r) ->
  runs vals m (fun r v => Q r /\ bin_evaluate v r = Ok (bits_val cs)).
Proof using Hp.
  intros Hv Hb H HQ. eapply to_runs; [exact Hv|exact H|]. cbv beta. intros r s v Hr _ G. split.
  - apply HQ. eapply hasl_length. exact Hr.
  - eapply hasl_bin_evaluate; eauto.
Qed.

Lemma to_runsl vals (m : B (list expr)) cs : good_inputs vals ->
  comp (fun k => (k <= length vals)%nat) [] (s0 vals) m (done [] (fun r s => hasl s r cs)) ->
  runs vals m (fun r v => omap (e_evaluate v) r = Ok cs).
Proof using Hp.
  intros Hv H. eapply to_runs; [exact Hv|exact H|]. cbv beta. intros r s v Hr _ G. eapply hasl_evaluate; eauto.
Qed.

End PropLib.
