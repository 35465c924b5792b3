(** [Gadget::execute]: termination, scheduling, confluence, and what a reported success means. *)
From Coq Require Import ZArith List Bool Arith Lia Znumtheory Permutation.
From Verif Require Import Base FieldM FieldP ExprM BuilderM Spec ExprP MonoP SoundP HonestP.
Import ListNotations.
Open Scope Z_scope.

(** All wires of the list have a value. *)
Definition available (v : values) (ks : list nat) : Prop := forall k, In k ks -> m_get k v <> None.

(** The generators run one after the other, each when its declared inputs have values. *)
Inductive runs_in_order : list wgen -> values -> values -> Prop :=
| rio_nil v : runs_in_order [] v v
| rio_cons g gs v v1 v' : available v (g_inputs g) -> g_run g v = Ok v1 ->
    runs_in_order gs v1 v' -> runs_in_order (g :: gs) v v'.

Lemma contains_all_available v ks : v_contains_all v ks = true <-> available v ks.
Proof.
  unfold v_contains_all, v_contains, m_mem, available. rewrite forallb_forall. split; intros H k Hk.
  - specialize (H k Hk). destruct (m_get k v); [discriminate|discriminate H].
  - specialize (H k Hk). destruct (m_get k v); [reflexivity|congruence].
Qed.

Lemma rio_app a b v v1 v' : runs_in_order a v v1 -> runs_in_order b v1 v' -> runs_in_order (a ++ b) v v'.
Proof. intros H Hb. induction H; simpl; auto. econstructor; eauto. Qed.

Lemma rio_keeps gs v v' : Forall (fun g => adds (g_run g)) gs -> runs_in_order gs v v' -> keeps v v'.
Proof.
  intros HA H. induction H as [|g gs v v1 v' Hi E H IH]; [apply keeps_refl|].
  apply Forall_cons_iff in HA. destruct HA as [H1 H2]. eapply keeps_trans; [apply (H1 v v1 E)|apply IH, H2].
Qed.

(** ** one pass and the loop *)
Section Exec.
Context {F : Field}.

Lemma exec_pass_rio pending : forall v kept v' p, exec_pass pending v = Ok (kept, v', p) ->
  exists done, Permutation pending (done ++ kept) /\ runs_in_order done v v' /\
    (p = false -> done = [] /\ v' = v /\ kept = pending /\
       Forall (fun g => v_contains_all v (g_inputs g) = false) pending) /\
    (p = true -> done <> []).
Proof.
  induction pending as [|g gs IH]; intros v kept v' p E; simpl in E.
  - inversion E; subst. exists []. repeat split; auto; try constructor; discriminate.
  - destruct (v_contains_all v (g_inputs g)) eqn:C.
    + destruct (g_run g v) as [v1| |] eqn:R; try discriminate. cbn [obind] in E.
      destruct (exec_pass gs v1) as [[[k2 v2] p2]| |] eqn:E2; try discriminate. cbn in E. inversion E; subst.
      destruct (IH _ _ _ _ E2) as (d & P & O & _). exists (g :: d). repeat split.
      * simpl. constructor. exact P.
      * econstructor; [apply contains_all_available, C|exact R|exact O].
      * discriminate.
      * discriminate.
      * discriminate.
      * discriminate.
      * discriminate.
    + destruct (exec_pass gs v) as [[[k2 v2] p2]| |] eqn:E2; try discriminate. cbn in E. inversion E; subst.
      destruct (IH _ _ _ _ E2) as (d & P & O & Hf & Ht). exists d. split.
      * rewrite P. apply Permutation_middle.
      * split; [exact O|]. split; [|exact Ht]. intro Hp. destruct (Hf Hp) as (-> & -> & -> & Hs). auto.
Qed.

Lemma exec_loop_rio fuel : forall pending v kept v', exec_loop fuel pending v = Ok (kept, v') ->
  exists done, Permutation pending (done ++ kept) /\ runs_in_order done v v' /\
    Forall (fun g => v_contains_all v' (g_inputs g) = false) kept.
Proof.
  induction fuel as [|f IH]; intros pending v kept v' E; simpl in E; [discriminate|].
  destruct (exec_pass pending v) as [[[k1 v1] p]| |] eqn:E1; try discriminate. cbn in E.
  destruct (exec_pass_rio _ _ _ _ _ E1) as (d & P & O & Hf & _). destruct p.
  - destruct (IH _ _ _ _ E) as (d2 & P2 & O2 & S2). exists (d ++ d2). split.
    + rewrite P, P2, app_assoc. reflexivity.
    + split; [eapply rio_app; eauto|exact S2].
  - inversion E; subst. destruct (Hf eq_refl) as (-> & -> & -> & S). exists []. simpl. auto using rio_nil.
Qed.

Lemma oall_true {A} (f : A -> outcome bool) l : oall f l = Ok true <-> Forall (fun a => f a = Ok true) l.
Proof.
  induction l as [|a l IH]; simpl; [split; auto|]. rewrite Forall_cons_iff, <- IH.
  destruct (f a) as [[]| |]; simpl; split; try tauto; try discriminate; intros [H _]; discriminate.
Qed.

Lemma oall_false {A} (f : A -> outcome bool) l : oall f l = Ok false -> exists a, In a l /\ f a = Ok false.
Proof.
  induction l as [|a l IH]; simpl; [discriminate|]. destruct (f a) as [[]| |] eqn:E; simpl; try discriminate.
  - intro H. destruct (IH H) as (x & Hx & Ex). eauto.
  - intros _. eauto.
Qed.

(** fuel is enough: the only way to run out is a generator doing so *)
Definition no_fuel_issue (g : wgen) : Prop := forall v, g_run g v <> NoFuel.

Lemma exec_pass_fuel pending : Forall no_fuel_issue pending -> forall v, exec_pass pending v <> NoFuel.
Proof.
  induction 1 as [|g gs Hg _ IH]; intros v; simpl; [discriminate|].
  destruct (v_contains_all v (g_inputs g)).
  - specialize (Hg v). destruct (g_run g v) as [v1| |]; cbn; try discriminate; [|congruence].
    specialize (IH v1). destruct (exec_pass gs v1) as [[[? ?] ?]| |]; cbn; congruence.
  - specialize (IH v). destruct (exec_pass gs v) as [[[? ?] ?]| |]; cbn; congruence.
Qed.

Lemma exec_loop_fuel fuel : forall pending, Forall no_fuel_issue pending -> (length pending < fuel)%nat ->
  forall v, exec_loop fuel pending v <> NoFuel.
Proof.
  induction fuel as [|f IH]; intros pending HN L v; simpl; [lia|].
  pose proof (exec_pass_fuel pending HN v) as H. destruct (exec_pass pending v) as [[[k v1] p]| |] eqn:E; cbn; try congruence.
  destruct p; [|congruence]. destruct (exec_pass_rio _ _ _ _ _ E) as (d & P & _ & _ & Ht).
  specialize (Ht eq_refl). apply IH.
  - apply Permutation_sym in P. eapply Permutation_Forall in HN; [|apply Permutation_sym, P].
    apply Forall_app in HN. tauto.
  - apply Permutation_length in P. rewrite app_length in P. destruct d; [congruence|]. simpl in P. lia.
Qed.

Lemma e_evaluate_total v e : e_evaluate v e <> NoFuel.
Proof.
  unfold e_evaluate. generalize fzero. induction e as [|[k c] e IH]; intro z; simpl; [discriminate|].
  unfold v_get, ounwrap. destruct (m_get k v); cbn; [apply IH|discriminate].
Qed.

Lemma c_evaluate_total v c : c_evaluate v c <> NoFuel.
Proof.
  unfold c_evaluate. pose proof (e_evaluate_total v (c_a c)). pose proof (e_evaluate_total v (c_b c)).
  pose proof (e_evaluate_total v (c_c c)).
  destruct (e_evaluate v (c_a c)), (e_evaluate v (c_b c)), (e_evaluate v (c_c c)); simpl; congruence.
Qed.

Lemma execute_terminates g v : Forall no_fuel_issue (gd_generators g) -> execute g v <> NoFuel.
Proof.
  intro H. unfold execute. pose proof (exec_loop_fuel (S (length (gd_generators g))) _ H ltac:(lia) v) as L.
  destruct (exec_loop _ _ _) as [[k v1]| |]; cbn; try congruence.
  destruct (length k =? 0)%nat; cbn; [|discriminate].
  assert (O : oall (c_evaluate v1) (gd_constraints g) <> NoFuel).
  { induction (gd_constraints g) as [|c cs IH]; simpl; [discriminate|].
    pose proof (c_evaluate_total v1 c). destruct (c_evaluate v1 c) as [[]| |]; cbn; congruence. }
  destruct (oall _ _); cbn; congruence.
Qed.

Lemma execute_rio g v ok v' : execute g v = Ok (ok, v') ->
  (exists order, Permutation order (gd_generators g) /\ runs_in_order order v v') /\
  (ok = true <-> Forall (fun c => c_evaluate v' c = Ok true) (gd_constraints g)).
Proof.
  unfold execute. destruct (exec_loop _ _ _) as [[k v1]| |] eqn:E; cbn; try discriminate.
  destruct (Nat.eqb_spec (length k) 0) as [L|L]; cbn; [|discriminate].
  destruct (oall _ _) as [b| |] eqn:O; cbn; try discriminate. intro H. inversion H; subst. split.
  - destruct (exec_loop_rio _ _ _ _ _ E) as (d & P & R & _). destruct k; [|discriminate L].
    rewrite app_nil_r in P. exists d. split; [apply Permutation_sym, P|exact R].
  - rewrite <- oall_true, O. split; [intros ->; reflexivity|intro H1; inversion H1; reflexivity].
Qed.

(** a generator that cannot run makes execute panic *)
Lemma execute_stuck g v ok v' : execute g v = Ok (ok, v') -> Forall (fun x => adds (g_run x)) (gd_generators g) ->
  forall x, In x (gd_generators g) -> available v' (g_inputs x).
Proof.
  intros E HA x Hx. destruct (execute_rio _ _ _ _ E) as ((o & P & R) & _).
  eapply Permutation_Forall in HA; [|apply Permutation_sym, P].
  assert (Ho : In x o) by (eapply Permutation_in; [apply Permutation_sym, P|exact Hx]). clear - HA R Ho.
  induction R as [|g gs v v1 v' Hi Er R IH]; [destruct Ho|].
  apply Forall_cons_iff in HA. destruct HA as [H1 H2]. destruct Ho as [->|Ho]; [|auto].
  intros k Hk. specialize (Hi k Hk). destruct (m_get k v) as [y|] eqn:Eg; [|congruence].
  apply (H1 _ _ Er) in Eg. apply (rio_keeps _ _ _ H2 R) in Eg. congruence.
Qed.

End Exec.

(** ** Confluence *)

(** A dependency-determined generator: it reads only its declared inputs, and either panics or writes
    exactly the wires [o], each once (so it panics if one of them already has a value). *)
Definition dep_determined (g : wgen) (o : list nat) : Prop :=
  exists h : (nat -> option Z) -> option (nat -> Z),
    (forall f1 f2, (forall k, In k (g_inputs g) -> f1 k = f2 k) -> h f1 = h f2) /\
    forall v, match h (fun k => m_get k v) with
              | Some x => if forallb (fun k => negb (v_contains v k)) o
                          then exists v', g_run g v = Ok v' /\
                                 forall k, m_get k v' = if memb k o then Some (x k) else m_get k v
                          else g_run g v = Panic
              | None => g_run g v = Panic
              end.

Definition same_values (v1 v2 : values) : Prop := forall k, m_get k v1 = m_get k v2.

Section Confluence.
Context {F : Field}.

(** [go]: generators with their output sets. *)
Definition dd_list (L : list (wgen * list nat)) : Prop := Forall (fun p => dep_determined (fst p) (snd p)) L.

Definition fresh_all (v : values) (o : list nat) := forallb (fun k => negb (v_contains v k)) o.

Lemma fresh_all_spec v o : fresh_all v o = true <-> forall k, In k o -> m_get k v = None.
Proof.
  unfold fresh_all. rewrite forallb_forall. unfold v_contains, m_mem.
  split; intros H k Hk; specialize (H k Hk); destruct (m_get k v); auto; discriminate.
Qed.

Lemma dd_run g o v v1 : dep_determined g o -> g_run g v = Ok v1 ->
  (forall k, In k o -> m_get k v = None) /\
  (forall u, (forall k, In k (g_inputs g) -> m_get k u = m_get k v) -> (forall k, In k o -> m_get k u = None) ->
    exists u1, g_run g u = Ok u1 /\ forall k, m_get k u1 = if memb k o then m_get k v1 else m_get k u) /\
  (forall k, m_get k v1 = if memb k o then m_get k v1 else m_get k v) /\
  (forall k, In k o -> m_get k v1 <> None).
Proof.
  intros (h & Hh & D) R. pose proof (D v) as Dv. destruct (h (fun k => m_get k v)) as [x|] eqn:Eh; [|congruence].
  fold (fresh_all v o) in Dv. destruct (fresh_all v o) eqn:Ef; [|congruence].
  destruct Dv as (v1' & R' & G). rewrite R in R'. inversion R'; subst v1'. split; [apply fresh_all_spec, Ef|].
  split; [|split].
  - intros u Hu Fu. pose proof (D u) as Du. rewrite (Hh _ (fun k => m_get k v)) in Du by exact Hu.
    rewrite Eh in Du. fold (fresh_all u o) in Du. apply fresh_all_spec in Fu. rewrite Fu in Du.
    destruct Du as (u1 & Ru & Gu). exists u1. split; auto. intro k. rewrite Gu, G. destruct (memb k o); reflexivity.
  - intro k. rewrite G. destruct (memb k o); reflexivity.
  - intros k Hk. rewrite G. apply memb_In in Hk. rewrite Hk. discriminate.
Qed.

(** facts about a completed run [L] from [v0] to [vf]: every generator sits in the right place *)
Inductive placed (vf : values) : list (wgen * list nat) -> values -> Prop :=
| pl_nil v : same_values v vf -> placed vf [] v
| pl_cons g o L v v1 : (forall k, In k o -> m_get k v = None) ->
    (forall k, In k (g_inputs g) -> m_get k v <> None /\ m_get k v = m_get k vf) ->
    (forall k, m_get k v1 = if memb k o then m_get k vf else m_get k v) ->
    (forall k, In k o -> m_get k vf <> None) ->
    (forall u, (forall k, In k (g_inputs g) -> m_get k u = m_get k vf) -> (forall k, In k o -> m_get k u = None) ->
      exists u1, g_run g u = Ok u1 /\ forall k, m_get k u1 = if memb k o then m_get k vf else m_get k u) ->
    placed vf L v1 -> placed vf ((g, o) :: L) v.

Lemma placed_keeps vf L v : placed vf L v -> forall k x, m_get k v = Some x -> m_get k vf = Some x.
Proof.
  induction 1 as [v S|g o L v v1 Fr Hi G Hn Hr H IH]; intros k x E; [rewrite <- S; exact E|].
  apply IH. rewrite G. destruct (memb k o) eqn:M; [|exact E]. apply memb_In in M. rewrite Fr in E by exact M. discriminate.
Qed.

Lemma rio_placed L : dd_list L -> forall v vf, runs_in_order (map fst L) v vf -> placed vf L v.
Proof.
  induction 1 as [|[g o] L HD _ IH]; intros v vf R; simpl in *.
  - inversion R; subst. constructor. intro k. reflexivity.
  - inversion R as [|g' gs' v' v1 v'' Av Er Rr]; subst. specialize (IH _ _ Rr).
    destruct (dd_run _ _ _ _ HD Er) as (Fr & Hu & Hsame & Hnn).
    assert (K1 : forall k, In k o -> m_get k v1 = m_get k vf).
    { intros k Hk. specialize (Hnn k Hk). destruct (m_get k v1) eqn:E1; [|congruence].
      symmetry. apply (placed_keeps _ _ _ IH), E1. }
    assert (K2 : forall k x, m_get k v = Some x -> m_get k vf = Some x).
    { intros k x E. apply (placed_keeps _ _ _ IH). rewrite Hsame.
      destruct (memb k o) eqn:M; [apply memb_In in M; rewrite Fr in E by exact M; discriminate|exact E]. }
    econstructor; eauto.
    + intros k Hk. pose proof (Av k Hk) as N. split; [exact N|].
      destruct (m_get k v) as [x|] eqn:E; [symmetry; auto|congruence].
    + intro k. rewrite Hsame. destruct (memb k o) eqn:M; [|reflexivity]. apply K1, memb_In, M.
    + intros k Hk. rewrite <- K1 by exact Hk. auto.
    + intros u Hiu Fu. destruct (Hu u) as (u1 & Ru & Gu); [|exact Fu|].
      * intros k Hk. rewrite (Hiu k Hk). specialize (Av k Hk).
        destruct (m_get k v) as [x|] eqn:E; [apply K2, E|congruence].
      * exists u1. split; auto. intro k. rewrite Gu. destruct (memb k o) eqn:M; [|reflexivity]. apply K1, memb_In, M.
Qed.

(** consequences independent of the position: disjointness of outputs *)
Lemma placed_outs vf L v : placed vf L v ->
  (forall p k, In p L -> In k (snd p) -> m_get k v = None) /\
  (forall L1 p L2, L = L1 ++ p :: L2 -> forall q k, In q (L1 ++ L2) -> In k (snd p) -> ~ In k (snd q)).
Proof.
  induction 1 as [v S|g o L v v1 Fr Hi G Hn Hr H [IH1 IH2]].
  - split; [intros p k []|]. intros L1 p L2 E; destruct L1; discriminate.
  - assert (D1 : forall q k, In q L -> In k (snd q) -> ~ In k o).
    { intros q k Hq Hk Hko. specialize (IH1 q k Hq Hk). rewrite G in IH1.
      pose proof Hko as M. apply memb_In in M. rewrite M in IH1. apply (Hn k Hko), IH1. }
    split.
    + intros p k [<-|Hp] Hk; [apply Fr, Hk|]. specialize (IH1 p k Hp Hk). rewrite G in IH1.
      destruct (memb k o) eqn:M; [apply memb_In in M; destruct (D1 p k Hp Hk M)|exact IH1].
    + intros L1 p L2 E q k Hq Hk Hkq. destruct L1 as [|p1 L1]; simpl in E; inversion E; subst.
      * simpl in Hq. exact (D1 q k Hq Hkq Hk).
      * simpl in Hq. destruct Hq as [<-|Hq].
        -- refine (D1 p k _ Hk Hkq). apply in_or_app. right. left. reflexivity.
        -- exact (IH2 L1 p L2 eq_refl q k Hq Hk Hkq).
Qed.

(** the state of another schedule: [R] still to run *)
Record Mid (vf : values) (R : list (wgen * list nat)) (v : values) : Prop := mkMid {
  m_run : forall p, In p R -> forall u, (forall k, In k (g_inputs (fst p)) -> m_get k u = m_get k vf) ->
     (forall k, In k (snd p) -> m_get k u = None) ->
     exists u1, g_run (fst p) u = Ok u1 /\ forall k, m_get k u1 = if memb k (snd p) then m_get k vf else m_get k u;
  m_disj : forall R1 p R2, R = R1 ++ p :: R2 -> forall q k, In q (R1 ++ R2) -> In k (snd p) -> ~ In k (snd q);
  m_val : forall k, m_get k v = if existsb (fun p => memb k (snd p)) R then None else m_get k vf;
}.

Lemma existsb_memb k (R : list (wgen * list nat)) :
  existsb (fun p => memb k (snd p)) R = true <-> exists p, In p R /\ In k (snd p).
Proof.
  rewrite existsb_exists. split; intros (p & H1 & H2); exists p; (split; [exact H1|]); apply memb_In; exact H2.
Qed.

Lemma Mid_perm vf R R' v : Permutation R R' -> Mid vf R v -> Mid vf R' v.
Proof.
  intros P [H1 H2 H3]. constructor.
  - intros p Hp. apply H1. eapply Permutation_in; [apply Permutation_sym, P|exact Hp].
  - intros R1 p R2 E q k Hq Hk. subst R'.
    assert (Hp : In p R) by (eapply Permutation_in; [apply Permutation_sym, P|apply in_or_app; right; left; reflexivity]).
    apply in_split in Hp. destruct Hp as (S1 & S2 & ->).
    apply (H2 S1 p S2 eq_refl q k); [|exact Hk].
    apply Permutation_app_inv in P. eapply Permutation_in; [apply Permutation_sym, P|exact Hq].
  - intro k. rewrite H3. replace (existsb (fun p => memb k (snd p)) R') with (existsb (fun p => memb k (snd p)) R); [reflexivity|].
    apply eq_true_iff_eq. rewrite !existsb_memb. split; intros (p & Hp & Hk); exists p; (split; [|exact Hk]);
      (eapply Permutation_in; [|exact Hp]); [exact P|apply Permutation_sym, P].
Qed.

Lemma Mid_step vf p R v : Mid vf (p :: R) v -> available v (g_inputs (fst p)) ->
  exists v1, g_run (fst p) v = Ok v1 /\ Mid vf R v1.
Proof.
  intros [H1 H2 H3] Av.
  destruct (H1 p (or_introl eq_refl) v) as (v1 & R1 & G).
  - intros k Hk. specialize (Av k Hk). rewrite H3 in Av |- *. destruct (existsb _ _); [congruence|reflexivity].
  - intros k Hk. rewrite H3. assert (E : existsb (fun p => memb k (snd p)) (p :: R) = true).
    { apply existsb_memb. exists p. split; [left; reflexivity|exact Hk]. } rewrite E. reflexivity.
  - exists v1. split; auto. constructor.
    + intros q Hq. apply H1. right. exact Hq.
    + intros R1' q R2 E r k Hr Hk. subst R. apply (H2 (p :: R1') q R2 eq_refl r k); [right; exact Hr|exact Hk].
    + intro k. rewrite G, H3. simpl. destruct (memb k (snd p)) eqn:M; simpl; [|reflexivity].
      destruct (existsb (fun p => memb k (snd p)) R) eqn:E; [|reflexivity].
      apply existsb_memb in E. destruct E as (q & Hq & Hk). exfalso. apply memb_In in M.
      apply (H2 [] p R eq_refl q k Hq M Hk).
Qed.

Lemma Mid_stuck vf L v0 R v : placed vf L v0 -> incl R L -> keeps v0 v -> Mid vf R v ->
  Forall (fun p => v_contains_all v (g_inputs (fst p)) = false) R -> R = [].
Proof.
  intros HL. revert R. induction HL as [v0 S|g o L v0 v1 Fr Hi G Hn Hr HL IH]; intros R HR HK HM HS.
  - destruct R as [|p R]; auto. destruct (HR p (or_introl eq_refl)).
  - (* the first generator of L cannot be in R: its inputs are initial *)
    assert (Hnot : forall p, In p R -> fst p = g /\ snd p = o -> False).
    { intros [g' o'] Hp [E1 E2]. simpl in *. subst g' o'. rewrite Forall_forall in HS. specialize (HS _ Hp). simpl in HS.
      assert (T : v_contains_all v (g_inputs g) = true).
      { apply contains_all_available. intros k Hk. destruct (Hi k Hk) as [N _].
        destruct (m_get k v0) as [x|] eqn:E; [|congruence]. rewrite (HK k x E). discriminate. }
      congruence. }
    apply IH; auto.
    + intros p Hp. destruct (HR p Hp) as [<-|H]; [|exact H]. exfalso. apply (Hnot (g, o) Hp). auto.
    + intros k x E. rewrite G in E. destruct (memb k o) eqn:M.
      * rewrite (m_val _ _ _ HM). destruct (existsb (fun p => memb k (snd p)) R) eqn:Ex; [|exact E].
        exfalso. apply existsb_memb in Ex. destruct Ex as (p & Hp & Hk). apply memb_In in M.
        assert (PL : placed vf ((g, o) :: L) v0) by (econstructor; eauto).
        destruct (placed_outs _ _ _ PL) as [_ D].
        destruct (HR p Hp) as [E1|HpL]; [subst p; exact (Hnot _ Hp (conj eq_refl eq_refl))|].
        exact (D [] (g, o) L eq_refl p k HpL M Hk).
      * apply HK, E.
Qed.

Lemma Mid_keeps vf L v0 R v : placed vf L v0 -> incl R L -> Mid vf R v -> keeps v0 v.
Proof.
  intros HL HR HM k x E. rewrite (m_val _ _ _ HM).
  destruct (existsb (fun p => memb k (snd p)) R) eqn:Ex; [|apply (placed_keeps _ _ _ HL), E].
  apply existsb_memb in Ex. destruct Ex as (p & Hp & Hk). destruct (placed_outs _ _ _ HL) as [D _].
  rewrite (D p k (HR p Hp) Hk) in E. discriminate.
Qed.

Lemma exec_pass_mid vf L v0 : placed vf L v0 -> forall P R v, incl (R ++ P) L -> Mid vf (R ++ P) v ->
  exists P' v' pr, exec_pass (map fst P) v = Ok (map fst P', v', pr) /\ Mid vf (R ++ P') v' /\ incl (R ++ P') L /\
    (if pr then (length P' < length P)%nat
     else P' = P /\ v' = v /\ Forall (fun p => v_contains_all v (g_inputs (fst p)) = false) P).
Proof.
  intro HL. induction P as [|p P IH]; intros R v HI HM.
  - exists [], v, false. split; [reflexivity|]. split; [exact HM|]. split; [exact HI|]. auto.
  - cbn [map exec_pass]. destruct (v_contains_all v (g_inputs (fst p))) eqn:C.
    + assert (HM' : Mid vf (p :: (R ++ P)) v).
      { eapply Mid_perm; [|exact HM]. apply Permutation_sym, Permutation_middle. }
      destruct (Mid_step _ _ _ _ HM' (proj1 (contains_all_available _ _) C)) as (v1 & Er & HM1).
      rewrite Er. cbn [obind].
      destruct (IH R v1) as (P' & v' & pr & E & HM2 & HI2 & Hpr); [|exact HM1|].
      { intros q Hq. apply HI. apply in_app_or in Hq. apply in_or_app. destruct Hq; [left|right; right]; assumption. }
      rewrite E. cbn. exists P', v', true. split; [reflexivity|]. split; [exact HM2|]. split; [exact HI2|].
      destruct pr; [simpl; lia|]. destruct Hpr as (-> & _). simpl. lia.
    + destruct (IH (R ++ [p]) v) as (P' & v' & pr & E & HM2 & HI2 & Hpr).
      { intros q Hq. apply HI. rewrite <- app_assoc in Hq. exact Hq. }
      { rewrite <- app_assoc. exact HM. }
      rewrite E. cbn. exists (p :: P'), v', pr. rewrite <- app_assoc in HM2, HI2. split; [reflexivity|]. split; [exact HM2|]. split; [exact HI2|].
      destruct pr; [simpl; lia|]. destruct Hpr as (-> & -> & Hs). auto.
Qed.

Lemma exec_loop_mid vf L v0 : placed vf L v0 -> forall fuel P v, (length P < fuel)%nat -> incl P L -> Mid vf P v ->
  exists v', exec_loop fuel (map fst P) v = Ok ([], v') /\ same_values v' vf.
Proof.
  intro HL. induction fuel as [|f IH]; intros P v Lf HI HM; [lia|]. cbn [exec_loop].
  destruct (exec_pass_mid vf L v0 HL P [] v HI HM) as (P' & v' & pr & E & HM2 & HI2 & Hpr).
  rewrite E. cbn. destruct pr.
  - apply IH; auto. lia.
  - destruct Hpr as (-> & -> & Hs). simpl in *.
    pose proof (Mid_keeps _ _ _ _ _ HL HI2 HM2) as HK.
    rewrite (Mid_stuck vf L v0 P v HL HI2 HK HM2 Hs). exists v. split; [reflexivity|].
    rewrite (Mid_stuck vf L v0 P v HL HI2 HK HM2 Hs) in HM2. intro k. rewrite (m_val _ _ _ HM2). reflexivity.
Qed.

Lemma Mid_start vf L v0 : placed vf L v0 -> Mid vf L v0.
Proof.
  intro HL. constructor.
  - induction HL as [|g o L v v1 Fr Hi G Hn Hr H IH]; intros p Hp; [destruct Hp|].
    destruct Hp as [<-|Hp]; [exact Hr|exact (IH p Hp)].
  - apply (placed_outs _ _ _ HL).
  - induction HL as [v S|g o L v v1 Fr Hi G Hn Hr H IH]; intro k; simpl; [apply S|].
    specialize (IH k). rewrite G in IH. destruct (memb k o) eqn:M; simpl.
    + apply Fr, memb_In, M.
    + exact IH.
Qed.

Lemma e_evaluate_same v1 v2 e : same_values v1 v2 -> e_evaluate v1 e = e_evaluate v2 e.
Proof.
  intro S. unfold e_evaluate. generalize fzero. induction e as [|[k c] e IH]; intro z; simpl; [reflexivity|].
  unfold v_get. rewrite S. destruct (ounwrap (m_get k v2)); simpl; auto.
Qed.

Lemma c_evaluate_same v1 v2 c : same_values v1 v2 -> c_evaluate v1 c = c_evaluate v2 c.
Proof. intro S. unfold c_evaluate. rewrite !(e_evaluate_same v1 v2) by exact S. reflexivity. Qed.

Lemma oall_same v1 v2 cs : same_values v1 v2 -> oall (c_evaluate v1) cs = oall (c_evaluate v2) cs.
Proof.
  intro S. induction cs as [|c cs IH]; simpl; [reflexivity|]. rewrite (c_evaluate_same _ _ c S), IH. reflexivity.
Qed.

Theorem execute_any_order L L' cs v0 vf : dd_list L -> Permutation L L' ->
  runs_in_order (map fst L) v0 vf ->
  exists v', execute (mkGadget cs (map fst L')) v0 = (let! ok := oall (c_evaluate vf) cs in Ok (ok, v')) /\ same_values v' vf.
Proof.
  intros HD P R. pose proof (rio_placed L HD _ _ R) as HL.
  destruct (exec_loop_mid vf L v0 HL (S (length (map fst L'))) L' v0) as (v' & E & S).
  - rewrite map_length. lia.
  - intros p Hp. eapply Permutation_in; [apply Permutation_sym, P|exact Hp].
  - eapply Mid_perm; [exact P|apply Mid_start, HL].
  - exists v'. split; [|exact S]. unfold execute. cbn [gd_generators gd_constraints]. rewrite E. cbn.
    rewrite (oall_same v' vf cs S). reflexivity.
Qed.

(** Two outcomes of execute agree. *)
Definition same_outcome (o1 o2 : outcome (bool * values)) : Prop :=
  match o1, o2 with
  | Ok (b1, v1), Ok (b2, v2) => b1 = b2 /\ same_values v1 v2
  | Panic, Panic => True
  | _, _ => False
  end.

Lemma dd_no_fuel g o : dep_determined g o -> no_fuel_issue g.
Proof.
  intros (h & _ & D) v E. specialize (D v). destruct (h _); [|congruence]. destruct (forallb _ _); [|congruence].
  destruct D as (v' & R & _). congruence.
Qed.

Lemma dd_list_fuel L : dd_list L -> Forall no_fuel_issue (map fst L).
Proof.
  unfold dd_list. rewrite Forall_map. intro H. eapply Forall_impl; [|exact H]. cbv beta. intros p Hp.
  eapply dd_no_fuel. exact Hp.
Qed.

Lemma perm_pairs (L : list (wgen * list nat)) order : Permutation order (map fst L) ->
  exists L', Permutation L L' /\ map fst L' = order.
Proof.
  intro P. apply Permutation_map_inv in P. destruct P as (L' & E & P).
  exists L'. split; [exact P|symmetry; exact E].
Qed.

Lemma execute_half L L' cs v0 r : dd_list L -> Permutation L L' ->
  execute (mkGadget cs (map fst L)) v0 = Ok r -> same_outcome (Ok r) (execute (mkGadget cs (map fst L')) v0).
Proof.
  intros HD P E. destruct r as [ok v]. pose proof (execute_rio _ _ _ _ E) as ((order & PO & R) & Hok).
  cbn [gd_generators gd_constraints] in *.
  destruct (perm_pairs L order PO) as (L1 & P1 & <-).
  assert (HD1 : dd_list L1) by (eapply Permutation_Forall; [exact P1|exact HD]).
  destruct (execute_any_order L1 L cs v0 v HD1 (Permutation_sym P1) R) as (va & Ea & Sa).
  destruct (execute_any_order L1 L' cs v0 v HD1) as (vb & Eb & Sb); [|exact R|].
  { eapply Permutation_trans; [apply Permutation_sym, P1|exact P]. }
  rewrite E in Ea. rewrite Eb. destruct (oall (c_evaluate v) cs) as [b| |]; cbn in *; try discriminate.
  inversion Ea; subst. split; [reflexivity|]. intro k. rewrite Sb. reflexivity.
Qed.

Theorem execute_confluent L L' cs v0 : dd_list L -> Permutation L L' ->
  same_outcome (execute (mkGadget cs (map fst L)) v0) (execute (mkGadget cs (map fst L')) v0).
Proof.
  intros HD P.
  assert (HD' : dd_list L') by (eapply Permutation_Forall; [exact P|exact HD]).
  pose proof (execute_terminates (mkGadget cs (map fst L)) v0 (dd_list_fuel L HD)) as N1.
  pose proof (execute_terminates (mkGadget cs (map fst L')) v0 (dd_list_fuel L' HD')) as N2.
  destruct (execute (mkGadget cs (map fst L)) v0) as [x1| |] eqn:E1; [exact (execute_half L L' cs v0 x1 HD P E1)| |congruence].
  destruct (execute (mkGadget cs (map fst L')) v0) as [x2| |] eqn:E2; [|simpl; exact I|congruence].
  pose proof (execute_half L' L cs v0 x2 HD' (Permutation_sym P) E2) as H. rewrite E1 in H.
  destruct x2. exact H.
Qed.

End Confluence.

(** ** A reported success is a satisfying witness *)
Section Accept.
Context {F : Field} (Hord : 2 <= order).

(** Values as a witness vector: missing wires read 0. *)
Definition witness_of (v : values) : witness := fun k => match m_get k v with Some x => x mod order | None => 0 end.

Lemma witness_of_wf v : m_get ONE v = Some 1 -> wf_witness (witness_of v).
Proof using Hord.
  intro H. split.
  - unfold witness_of. rewrite H. apply Z.mod_small. lia.
  - intro k. unfold witness_of. destruct (m_get k v); [apply Z.mod_pos_bound; lia|lia].
Qed.

Lemma e_evaluate_witness v e x : e_evaluate v e = Ok x -> x = ev (witness_of v) e.
Proof using Hord.
  unfold e_evaluate, ev.
  assert (G : forall e z x, ofold (fun s kc => let! x := v_get v (fst kc) in Ok (fadd s (fmul x (snd kc)))) e z = Ok x ->
     0 <= z < order -> x = (z + lin (witness_of v) e) mod order).
  { clear e x. induction e as [|[k c] e IH]; intros z x E Hz; simpl in E.
    - inversion E; subst. simpl. rewrite Z.add_0_r, Z.mod_small by exact Hz. reflexivity.
    - unfold v_get, ounwrap in E. destruct (m_get k v) as [y|] eqn:G; cbn in E; [|discriminate].
      apply IH in E; [|apply Z.mod_pos_bound; lia]. rewrite E. cbn [lin fold_right fst snd].
      unfold witness_of at 2. rewrite G. unfold fadd, fmul.
      rewrite Z.add_mod_idemp_l by lia. rewrite <- (Z.add_mod_idemp_l (z + _)) by lia.
      rewrite Z.add_mod_idemp_r by lia. rewrite Z.add_mod_idemp_l by lia. 
      fold (lin (witness_of v) e). rewrite !Z.add_assoc. rewrite <- (Z.add_mod_idemp_l (z + y mod order * c)) by lia.
      rewrite <- (Z.add_mod_idemp_r z (y mod order * c)) by lia. rewrite Z.mul_mod_idemp_l by lia.
      rewrite Z.add_mod_idemp_r by lia. rewrite Z.add_mod_idemp_l by lia. reflexivity. }
  intro E. apply G in E; [|unfold fzero; lia]. rewrite E. reflexivity.
Qed.

Lemma accept_sat b v0 v : execute (build b) v0 = Ok (true, v) -> sat (witness_of v) b.
Proof using Hord.
  intro E. destruct (execute_rio _ _ _ _ E) as (_ & [H _]). specialize (H eq_refl). cbn in H.
  unfold sat. eapply Forall_impl; [|exact H]. cbv beta. intros c Hc. unfold c_evaluate in Hc.
  destruct (e_evaluate v (c_a c)) as [x| |] eqn:Ea; try discriminate.
  destruct (e_evaluate v (c_b c)) as [y| |] eqn:Eb; try discriminate.
  destruct (e_evaluate v (c_c c)) as [z| |] eqn:Ec; try discriminate. cbn in Hc. inversion Hc as [Hz].
  unfold sat1. rewrite <- (e_evaluate_witness _ _ _ Ea), <- (e_evaluate_witness _ _ _ Eb), <- (e_evaluate_witness _ _ _ Ec).
  apply Z.eqb_eq. exact Hz.
Qed.

End Accept.
