(** Satisfiability logic: extending a satisfying witness over a call, with freely chosen values for the
    new wires.  Used for completeness on arbitrary builders and for forging witnesses. *)
From Coq Require Import ZArith List Bool Arith Lia Znumtheory Permutation.
From Verif Require Import Base FieldM FieldP ExprM BuilderM GadgetsM Spec ExprP BitsP MonoP LocalP SoundP
  HonestP CompleteP.
Import ListNotations.
Open Scope Z_scope.

Section Sat.
Context {F : Field}.

Definition csat {A} (s : st) (m : B A) (Q : A -> st -> Prop) : Prop :=
  forall b, next b = nx s -> good s -> wf_builder b -> sat (wt s) b ->
  exists a b' s', m b = Ok (a, b') /\ next b' = nx s' /\ good s' /\ wf_builder b' /\ sat (wt s') b' /\
    ext s s' /\ Q a s'.

Lemma csat_ret {A} s (a : A) (Q : A -> st -> Prop) : Q a s -> csat s (bret a) Q.
Proof. intros H b N G W S. exists a, b, s. repeat (split; [assumption || reflexivity|]). split; [apply ext_refl|exact H]. Qed.

Lemma csat_lift {A} s (o : outcome A) a (Q : A -> st -> Prop) : o = Ok a -> Q a s -> csat s (blift o) Q.
Proof. intros -> H b N G W S. exists a, b, s. repeat (split; [assumption || reflexivity|]). split; [apply ext_refl|exact H]. Qed.

Lemma csat_good {A} s (m : B A) Q : (good s -> csat s m Q) -> csat s m Q.
Proof. intros H b N G W S. exact (H G b N G W S). Qed.

Lemma csat_bind {A C} s (m : B A) (k : A -> B C) Q R : csat s m Q ->
  (forall a s1, ext s s1 -> good s1 -> Q a s1 -> csat s1 (k a) R) -> csat s (bbind m k) R.
Proof.
  intros H1 H2 b N G W S. destruct (H1 b N G W S) as (a & b1 & s1 & E1 & N1 & G1 & W1 & S1 & X1 & Q1).
  destruct (H2 a s1 X1 G1 Q1 b1 N1 G1 W1 S1) as (c & b2 & s2 & E2 & N2 & G2 & W2 & S2 & X2 & Q2).
  exists c, b2, s2. unfold bbind. rewrite E1. repeat (split; [assumption|]). split; [eapply ext_trans; eauto|exact Q2].
Qed.

Lemma csat_liftb {A C} s (o : outcome A) a (k : A -> B C) R : o = Ok a -> csat s (k a) R -> csat s (bbind (blift o) k) R.
Proof. intros -> H b N G W S. exact (H b N G W S). Qed.

Lemma csat_weaken {A} s (m : B A) (Q R : A -> st -> Prop) : csat s m Q ->
  (forall a s1, ext s s1 -> good s1 -> Q a s1 -> R a s1) -> csat s m R.
Proof.
  intros H1 H2 b N G W S. destruct (H1 b N G W S) as (a & b1 & s1 & E1 & N1 & G1 & W1 & S1 & X1 & Q1).
  exists a, b1, s1. repeat (split; [assumption|]). auto.
Qed.

Lemma wf_builder_grow b n : wf_builder b -> (next b <= n)%nat ->
  wf_builder (mkB n (constraints b) (generators b)).
Proof.
  intros [P H] L. split; [simpl; lia|]. simpl. eapply Forall_impl; [|exact H]. cbv beta. unfold over.
  intros c (A & B & C). repeat split; intros k Hk; [specialize (A k Hk)|specialize (B k Hk)|specialize (C k Hk)]; lia.
Qed.

Lemma sat_ext w w' b : wf_builder b -> (forall k, (k < next b)%nat -> w' k = w k) -> sat w b -> sat w' b.
Proof.
  intros [_ H] U S. unfold sat in *. rewrite Forall_forall in *. intros c Hc. destruct (H c Hc) as (Oa & Ob & Oc).
  specialize (S c Hc). unfold sat1 in *.
  rewrite (ev_ext w' w (c_a c)), (ev_ext w' w (c_b c)), (ev_ext w' w (c_c c)); auto; intros k Hk; apply U; auto.
Qed.

(** any field element may be chosen for a new wire *)
Lemma csat_wire s x : 0 <= x < order ->
  csat s b_wire (fun k s' => k = nx s /\ nx s' = S (nx s) /\ hasw s' k x).
Proof.
  intros Hx b N [Gw Gn] W S0.
  exists (nx s), (mkB (S (next b)) (constraints b) (generators b)), (S (nx s), upd (wt s) (nx s) x).
  assert (U : forall k, (k < nx s)%nat -> upd (wt s) (nx s) x k = wt s k).
  { intros k Hk. unfold upd. destruct (Nat.eqb_spec k (nx s)); [lia|reflexivity]. }
  split; [unfold b_wire; rewrite N; reflexivity|]. split; [simpl; rewrite N; reflexivity|].
  split; [split; [split|simpl; lia]|].
  - cbn [snd]. unfold ONE. rewrite U by lia. apply Gw.
  - intro k. cbn [snd]. unfold upd. destruct (k =? nx s)%nat; [lia|apply Gw].
  - split; [apply wf_builder_grow; [exact W|lia]|]. split.
    + apply (sat_ext (wt s) (upd (wt s) (nx s) x) b W); [intros k Hk; apply U; rewrite <- N; exact Hk|exact S0].
    + split; [split; [simpl; lia|exact U]|]. split; [reflexivity|]. split; [reflexivity|].
      split; [simpl; lia|]. cbn [snd]. unfold upd. rewrite Nat.eqb_refl. reflexivity.
Qed.

Lemma csat_assert_product s x y z a c r : has s x a -> has s y c -> has s z r -> r = (a * c) mod order ->
  csat s (assert_product x y z) (fun _ s' => s' = s).
Proof.
  intros [Ox Ex] [Oy Ey] [Oz Ez] -> b N G [Wn W] S0.
  exists tt, (mkB (next b) (constraints b ++ [mkC x y z]) (generators b)), s.
  split; [reflexivity|]. split; [exact N|]. split; [exact G|]. split; [split; [exact Wn|]|split; [|split; [apply ext_refl|reflexivity]]].
  - simpl. apply Forall_app. split; [exact W|]. constructor; [|constructor]. simpl. rewrite N. auto.
  - unfold sat. simpl. apply Forall_app. split; [exact S0|]. constructor; [|constructor].
    unfold sat1. simpl. rewrite Ex, Ey, Ez. reflexivity.
Qed.

(** generators are the prover's business *)
Lemma csat_generator s d r : csat s (b_generator d r) (fun _ s' => s' = s).
Proof.
  intros b N G W S0. exists tt, (mkB (next b) (constraints b) (generators b ++ [mkG d r])), s.
  split; [reflexivity|]. split; [exact N|]. split; [exact G|]. split; [exact W|]. split; [exact S0|].
  split; [apply ext_refl|reflexivity].
Qed.

Lemma csat_bmap {A C} (f : A -> B C) (R : A -> C -> st -> Prop) l s :
  (forall a c s1 s2, ext s1 s2 -> R a c s1 -> R a c s2) ->
  (forall a s1, In a l -> ext s s1 -> csat s1 (f a) (R a)) ->
  csat s (bmap f l) (fun cs s' => Forall2 (fun a c => R a c s') l cs).
Proof.
  intros Hext. revert s. induction l as [|a l IH]; intros s H; simpl.
  - apply csat_ret. constructor.
  - eapply csat_bind; [apply H; [left; reflexivity|apply ext_refl]|].
    intros c s1 X1 _ R1. eapply csat_bind; [apply IH|].
    { intros a' s' Ha' X'. apply H; [right; exact Ha'|]. eapply ext_trans; eauto. }
    intros cs s2 X2 _ R2. apply csat_ret. constructor; auto. eapply Hext; eauto.
Qed.

Lemma csat_bfold_seq {T} (f : T -> nat -> B T) (I : nat -> T -> st -> Prop) n :
  forall k s0 x, I k x s0 ->
  (forall i x s1, (k <= i < k + n)%nat -> ext s0 s1 -> I i x s1 -> csat s1 (f x i) (I (S i))) ->
  csat s0 (bfold f (seq k n) x) (I (k + n)%nat).
Proof.
  induction n as [|n IH]; intros k s0 x H0 Hs; simpl.
  - rewrite Nat.add_0_r. apply csat_ret. auto.
  - eapply csat_bind; [apply Hs; [lia|apply ext_refl|exact H0]|].
    intros x' s1 X1 _ H1. rewrite <- Nat.add_succ_comm. apply IH; auto.
    intros i y s2 Hi X2 HI. apply Hs; [lia| |exact HI]. eapply ext_trans; eauto.
Qed.

(** an honest completeness triple is in particular a satisfiability triple, on every builder *)
Lemma csat_comp {A} s (m : B A) Q : local m ->
  comp (fun k => (k < nx s)%nat) [] s m (done [] Q) -> csat s m Q.
Proof.
  intros HL H b N G W S0.
  destruct (H (mkB (nx s) [] [])) as (a & d & P' & s' & E & [Nd Hd] & X & [-> HQ]).
  - split; [reflexivity|]. destruct G as [Gw Gn]. constructor.
    + exact Gw.
    + unfold ONE. exact Gn.
    + auto.
    + constructor.
    + exists []. simpl. split; [constructor|]. split; [constructor|]. split; [tauto|]. auto.
  - exists a, (grow b d), s'. rewrite (HL b), N, E. split; [reflexivity|]. split; [exact Nd|].
    assert (X' := X). destruct X as [X1 X2]. destruct Hd as [D1 _ _ D4 _].
    split; [split; [exact D1|destruct G; lia]|]. split.
    + destruct W as [Wn W]. split; [simpl; lia|]. unfold grow. simpl. apply Forall_app. split.
      * eapply Forall_impl; [|exact W]. cbv beta. unfold over. rewrite Nd.
        intros c (P1 & P2 & P3). repeat split; intros k Hk; [specialize (P1 k Hk)|specialize (P2 k Hk)|specialize (P3 k Hk)]; lia.
      * eapply Forall_impl; [|exact D4]. cbv beta. tauto.
    + split; [|split; [exact X'|exact HQ]]. unfold sat, grow. simpl. apply Forall_app. split.
      * apply (sat_ext (wt s) (wt s') b W); [|exact S0]. intros k Hk. apply X2. rewrite <- N. exact Hk.
      * eapply Forall_impl; [|exact D4]. cbv beta. tauto.
Qed.

Lemma to_sat_call {A} (m : B A) (Pre : nat -> witness -> Prop) (R : witness -> A -> Prop) :
  (forall s, good s -> Pre (nx s) (wt s) -> csat s m (fun r s' => R (wt s') r)) -> sat_call m Pre R.
Proof.
  intros H b w W Hw S HP. assert (G : good (next b, w)) by (split; [exact Hw|apply W]).
  destruct (H (next b, w) G HP b eq_refl G W S) as (a & b' & s' & E & N' & G' & W' & S' & X' & HR).
  exists a, b', (wt s'). split; [exact E|]. split; [exact W'|]. split; [apply G'|].
  split; [apply X'|]. split; [exact S'|exact HR].
Qed.

Lemma has_below n w (s : st) e : nx s = n -> wt s = w -> below n e -> has s e (ev w e).
Proof. intros <- <- H. split; [exact H|reflexivity]. Qed.

End Sat.
