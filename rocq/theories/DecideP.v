(** Execution of assertions: a complete call followed by constraints only; generators that panic. *)
From Coq Require Import ZArith List Bool Arith Lia Znumtheory Permutation.
From Verif Require Import Base FieldM FieldP ExprM BuilderM GadgetsM Spec SpecDecide ExprP BitsP MonoP SoundP ExecP HonestP CompleteP GadgetCompleteP PropLib DetP FlowP.
Import ListNotations.
Open Scope Z_scope.

Section Decide.
Context {F : Field} (Hp : prime order).

(** only appends the constraints [cs] *)
Definition appends {A} (k : B A) (cs : list constraint) (a : A) : Prop := forall b, k b = Ok (a, mkB (next b) (constraints b ++ cs) (generators b)).
Definition checks (s : st) (cs : list constraint) (claim : Prop) : Prop :=
  exists ok, (forall v, (forall k, (k < nx s)%nat -> m_get k v = Some (wt s k)) -> oall (c_evaluate v) cs = Ok ok) /\ (ok = true <-> claim).

Lemma oall_app {A} (f : A -> outcome bool) l1 l2 : oall f l1 = Ok true -> oall f (l1 ++ l2) = oall f l2.
Proof. induction l1 as [|a l1 IH]; cbn [oall app]; [reflexivity|]. destruct (f a) as [[]| |]; cbn [obind]; try discriminate. exact IH. Qed.

Lemma decide_after {A C} vals (m : B A) (k : A -> B C) Q (claim : Prop) : good_inputs vals ->
  comp (fun k => (k <= length vals)%nat) [] (s0 vals) m (done [] Q) ->
  (forall r s, Q r s -> ext (s0 vals) s -> exists cs a, appends (k r) cs a /\ checks s cs claim) ->
  decides vals (bbind m k) claim.
Proof using Hp.
  intros Hv H HK v0 I. destruct (complete_run Hp vals m Q Hv H v0 I) as (r & b' & v & s & E & Ex & HQ & X & G).
  destruct (HK r s HQ X) as (cs & a & Ea & ok & Eo & Cl).
  exists (seq 1 (length vals)), (mkB (S (length vals)) [] []), a, (mkB (next b') (constraints b' ++ cs) (generators b')), ok, v.
  split; [apply inputs_builder|]. split; [unfold bbind; rewrite E; apply Ea|]. split.
  - unfold execute, build in *. cbn [gd_generators gd_constraints constraints generators] in *. destruct (exec_loop _ _ _) as [[kept v1]| |]; cbn [obind] in *; try discriminate.
    destruct (oassert _); cbn [obind] in *; try discriminate. destruct (oall (c_evaluate v1) (constraints b')) as [ok1| |] eqn:Eb; cbn [obind] in *; try discriminate.
    injection Ex as -> ->. rewrite (oall_app _ _ _ Eb), (Eo v G). reflexivity.
  - split; [|exact Cl]. intros j x Hj. destruct I as (I1 & I2 & I3). destruct X as [X1 X2]. cbn [s0 fst snd] in X1, X2.
    destruct (le_lt_dec j (length vals)) as [L|L]; [|rewrite I3 in Hj by assumption; discriminate].
    rewrite G by lia. rewrite X2 by lia. rewrite <- Hj. symmetry. destruct j; [exact I1|]. apply I2. lia.
Qed.
Lemma decide_at_once {C} vals (k : B C) (claim : Prop) : good_inputs vals -> (exists cs a, appends k cs a /\ checks (s0 vals) cs claim) -> decides vals k claim.
Proof using Hp.
  intros Hv H. change k with (bbind (bret tt) (fun _ => k)). eapply decide_after with (Q := fun _ s => s = s0 vals); [exact Hv|apply comp_ret; split; reflexivity|].
  intros r s -> _. exact H.
Qed.
Lemma decides_iff {A} vals (m : B A) (P Q : Prop) : (P <-> Q) -> decides vals m P -> decides vals m Q.
Proof using.
  intros HPQ H v0 I. destruct (H v0 I) as (ws & b0 & r & b' & ok & v & E1 & E2 & E3 & E4 & E5). exists ws, b0, r, b', ok, v. rewrite <- HPQ. auto.
Qed.

(** the constraints *)
Lemma checks_product s x y z a b c : has s x a -> has s y b -> has s z c -> checks s [mkC x y z] ((a * b) mod order = c).
Proof using Hp.
  intros Hx Hy Hz. exists (fmul a b =? c). split; [|apply Z.eqb_eq]. intros v G. cbn [oall]. unfold c_evaluate. cbn [c_a c_b c_c].
  rewrite (has_run Hp s v x a G Hx), (has_run Hp s v y b G Hy), (has_run Hp s v z c G Hz). cbn [obind]. destruct (fmul a b =? c); reflexivity.
Qed.
Lemma checks_equal s x y a b : wt s ONE = 1 -> (ONE < nx s)%nat -> has s x a -> has s y b -> checks s [mkC x e_one y] (a = b).
Proof using Hp.
  intros W L Hx Hy. assert (H1 : has s e_one 1).
  { split; [apply over_one; exact L|apply (ev_one (prime_ge2 Hp)); exact W]. }
  destruct (checks_product s x e_one y a 1 b Hx H1 Hy) as (ok & E & C). exists ok. split; [exact E|]. rewrite C, Z.mul_1_r.
  rewrite Z.mod_small; [tauto|]. destruct Hx as [_ <-]. apply Z.mod_pos_bound. pose proof (prime_ge2 Hp). lia.
Qed.
Lemma checks_app s cs1 cs2 P Q : checks s cs1 P -> checks s cs2 Q -> checks s (cs1 ++ cs2) (P /\ Q).
Proof using.
  intros (o1 & E1 & C1) (o2 & E2 & C2). exists (o1 && o2). split; [|rewrite andb_true_iff; tauto]. intros v G. specialize (E1 v G). specialize (E2 v G).
  destruct o1; cbn [andb]; [rewrite (oall_app _ _ _ E1); exact E2|]. clear E2 C1. induction cs1 as [|c cs1 IH]; cbn [oall app] in *; [discriminate|].
  destruct (c_evaluate v c) as [[]| |]; cbn [obind] in *; try discriminate; auto.
Qed.
Lemma checks_nil s : checks s [] True.
Proof using. exists true. split; [reflexivity|tauto]. Qed.
Lemma checks_iff s cs P Q : (P <-> Q) -> checks s cs P -> checks s cs Q.
Proof using. intros E (ok & H1 & H2). exists ok. rewrite <- E. auto. Qed.
Lemma appends_equal x y : appends (assert_equal x y) [mkC x e_one y] tt.
Proof using. intro b. reflexivity. Qed.

(** ** panics *)
Lemma aborts_intro {A} vals (m : B A) Q r b' : good_inputs vals -> fl (S (length vals)) m Q -> mono m -> m (mkB (S (length vals)) [] []) = Ok (r, b') ->
  (exists g, In g (generators b') /\ forall v, (forall k, (k <= length vals)%nat -> m_get k v = Some (input_witness vals k)) -> g_run g v = Panic) ->
  aborts vals m.
Proof using.
  intros Hv HF HM E (g & Ig & Pg) v0 I. exists (seq 1 (length vals)), (mkB (S (length vals)) [] []), r, b'. split; [apply inputs_builder|]. split; [exact E|].
  destruct (HF (mkB (S (length vals)) [] []) r b' (le_n_S _ _ (Nat.le_0_l _)) (le_n _) E) as (N & L & U & cs & G & W & C & B & [-> _] & P). cbn [generators constraints next app] in *.
  assert (IV : forall k, (k <= length vals)%nat -> m_get k v0 = Some (input_witness vals k)).
  { destruct I as (I1 & I2 & _). intros [|k] Hk; [exact I1|apply I2; lia]. }
  assert (ND : NoDup (outs L)) by (eapply Permutation_NoDup; [apply Permutation_sym, P|apply seq_NoDup]).
  unfold build. destruct (execute_flow L (constraints b') v0 (next b') W) as [(ok & v' & Ex & _)|[Ex _]].
  - rewrite C. exact B.
  - split; [eapply Forall_impl; [|exact W]; intros p [Hw _]; exact Hw|]. split; [exact ND|]. intros k Hk.
    assert (J : In k (seq (S (length vals)) (next b' - S (length vals)))) by (eapply Permutation_in; [exact P|exact Hk]). apply in_seq in J. apply I. lia.
  - intros k Hk. destruct (le_lt_dec k (length vals)) as [J|J]; [right; rewrite IV by exact J; discriminate|left]. eapply Permutation_in; [apply Permutation_sym, P|]. apply in_seq. lia.
  - exfalso. destruct (execute_rio _ _ _ _ Ex) as ((ran & Pm & Rio) & _). cbn [gd_generators] in Pm. rewrite <- G in Pm.
    assert (AG : Forall (fun g => adds (g_run g)) ran).
    { rewrite Pm. destruct (HM _ _ _ E) as (_ & _ & gs & Eg & Ag). cbn in Eg. rewrite Eg. exact Ag. }
    assert (Ir : In g ran) by (eapply Permutation_in; [apply Permutation_sym, Pm|exact Ig]). clear - Rio AG Ir Pg IV. revert IV.
    induction Rio as [v|h gs v v1 v' Av Eh _ IH]; intro IV; [destruct Ir|]. inversion AG as [|? ? A1 A2]; subst. destruct Ir as [<-|Ir].
    + rewrite (Pg v IV) in Eh. discriminate.
    + apply IH; [exact A2|exact Ir|]. intros k Hk. apply (A1 _ _ Eh), IV, Hk.
  - rewrite G. exact Ex.
Qed.
End Decide.
