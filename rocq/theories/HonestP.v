(** Completeness logic: builder states that [execute] can complete, with the witness it finds. *)
From Coq Require Import ZArith List Bool Arith Lia Znumtheory Permutation.
From Verif Require Import Base FieldM FieldP ExprM BuilderM Spec ExprP.
Import ListNotations.
Open Scope Z_scope.

Notation nx := (@fst nat witness).
Notation wt := (@snd nat witness).

Definition memb (k : nat) (o : list nat) : bool := existsb (Nat.eqb k) o.
Lemma memb_In k o : memb k o = true <-> In k o.
Proof.
  unfold memb. rewrite existsb_exists. split.
  - intros (x & H & E). apply Nat.eqb_eq in E. subst. exact H.
  - intro H. exists k. split; auto. apply Nat.eqb_refl.
Qed.
Lemma memb_not k o : memb k o = false <-> ~ In k o.
Proof. rewrite <- memb_In. destruct (memb k o); intuition congruence. Qed.

Lemma NoDup_split {A} (l : list A) : forall r, NoDup (l ++ r) ->
  NoDup l /\ NoDup r /\ (forall x, In x l -> ~ In x r).
Proof.
  induction l as [|a l IH]; intros r H; simpl in *.
  - repeat split; auto. constructor.
  - inversion H as [|? ? Ha Hr]; subst. destruct (IH r Hr) as (A1 & A2 & A3). rewrite in_app_iff in Ha.
    repeat split; auto.
    + constructor; tauto.
    + intros x [<-|Hx]; auto.
Qed.

Lemma NoDup_glue {A} (l r : list A) : NoDup l -> NoDup r -> (forall x, In x l -> ~ In x r) -> NoDup (l ++ r).
Proof.
  induction 1 as [|a l Ha _ IH]; intros Hr Hd; simpl; auto.
  constructor; [rewrite in_app_iff; intros [H|H]; [contradiction|apply (Hd a); simpl; auto]|].
  apply IH; auto. intros x Hx. apply Hd. right. exact Hx.
Qed.

Section Honest.
Context {F : Field}.

(** A generator that reads only its declared inputs and fills exactly the wires [o] with the values
    of [w]. *)
Definition gen_ok (w : witness) (g : wgen) (o : list nat) : Prop :=
  forall v, (forall i, In i (g_inputs g) -> m_get i v = Some (w i)) ->
            (forall k, In k o -> m_get k v = None) ->
  exists v', g_run g v = Ok v' /\
             forall k, m_get k v' = if memb k o then Some (w k) else m_get k v.

(** [D]: externally given wires; [P]: wires whose generator has not been added yet. *)
Record Honest (b : builder) (D : nat -> Prop) (P : list nat) (w : witness) : Prop := mkHonest {
  h_wf : wf_witness w;
  h_one : D ONE;
  h_Dlt : forall k, D k -> (k < next b)%nat;
  h_sat : Forall (fun c => sat1 w c /\ over (fun k => (k < next b)%nat) (c_a c) /\
                           over (fun k => (k < next b)%nat) (c_b c) /\
                           over (fun k => (k < next b)%nat) (c_c c)) (constraints b);
  h_gens : exists outs,
    Forall2 (fun g o => gen_ok w g o /\ (forall i, In i (g_inputs g) -> (i < next b)%nat) /\
                        (forall i k, In i (g_inputs g) -> In k o -> (i < k)%nat))
            (generators b) outs /\
    NoDup (P ++ concat outs) /\
    (forall k, In k (P ++ concat outs) -> ~ D k /\ (k < next b)%nat) /\
    (forall k, (k < next b)%nat -> D k \/ In k (P ++ concat outs))
}.

(** ** execute completes an honest state *)
Section Execute.
Context (n : nat) (w : witness).

Definition pend := list (wgen * list nat).

Record Inv (L : pend) (v : values) : Prop := mkInv {
  i_nodup : NoDup (concat (map snd L));
  i_lt : forall k, In k (concat (map snd L)) -> (k < n)%nat;
  i_none : forall k, In k (concat (map snd L)) -> m_get k v = None;
  i_some : forall k, (k < n)%nat -> ~ In k (concat (map snd L)) -> m_get k v = Some (w k);
  i_gen : Forall (fun go => gen_ok w (fst go) (snd go) /\ (forall i, In i (g_inputs (fst go)) -> (i < n)%nat) /\
                  (forall i k, In i (g_inputs (fst go)) -> In k (snd go) -> (i < k)%nat)) L
}.

Lemma contains_all_get v L is_ : Inv L v -> (forall i, In i is_ -> (i < n)%nat) ->
  v_contains_all v is_ = true -> forall i, In i is_ -> m_get i v = Some (w i).
Proof.
  intros I Hlt H i Hi. unfold v_contains_all in H. rewrite forallb_forall in H.
  specialize (H i Hi). unfold v_contains in H. apply m_mem_keys in H.
  apply (i_some _ _ I); auto. intro C. apply (i_none _ _ I), m_get_None in C. contradiction.
Qed.

Lemma Inv_run R g o P v : Inv (R ++ (g, o) :: P) v -> v_contains_all v (g_inputs g) = true ->
  exists v', g_run g v = Ok v' /\ Inv (R ++ P) v'.
Proof.
  intros I H. pose proof (i_gen _ _ I) as G. rewrite Forall_forall in G.
  destruct (G (g, o)) as (Gok & Glt & _); [apply in_or_app; right; left; reflexivity|]. simpl in *.
  pose proof (contains_all_get v _ (g_inputs g) I Glt H) as Hin.
  assert (Hperm : Permutation (concat (map snd (R ++ (g, o) :: P))) (o ++ concat (map snd (R ++ P)))).
  { rewrite !map_app, !concat_app. simpl. rewrite !app_assoc. apply Permutation_app_tail, Permutation_app_comm. }
  pose proof (Permutation_NoDup Hperm (i_nodup _ _ I)) as ND. apply NoDup_split in ND.
  destruct ND as (_ & ND2 & ND3).
  assert (Hmem : forall k, In k (concat (map snd (R ++ (g, o) :: P))) <-> In k o \/ In k (concat (map snd (R ++ P)))).
  { intro k. rewrite <- in_app_iff. split; apply Permutation_in; [exact Hperm|apply Permutation_sym; exact Hperm]. }
  destruct (Gok v Hin) as (v' & Hrun & Hv').
  { intros k Hk. apply (i_none _ _ I), Hmem. left. exact Hk. }
  exists v'. split; auto. split.
  - exact ND2.
  - intros k Hk. apply (i_lt _ _ I), Hmem. right. exact Hk.
  - intros k Hk. rewrite Hv'. destruct (memb k o) eqn:E.
    + apply memb_In in E. exfalso. apply (ND3 k); auto.
    + apply (i_none _ _ I), Hmem. right. exact Hk.
  - intros k Hk Hn. rewrite Hv'. destruct (memb k o) eqn:E; auto.
    apply memb_not in E. apply (i_some _ _ I); auto. rewrite Hmem. tauto.
  - rewrite Forall_forall in *. intros go Hgo. apply G. apply in_or_app. apply in_app_or in Hgo.
    simpl. tauto.
Qed.

Lemma exec_pass_inv P : forall R v, Inv (R ++ P) v ->
  exists P' v' pr, exec_pass (map fst P) v = Ok (map fst P', v', pr) /\ Inv (R ++ P') v' /\
    (if pr then (length P' < length P)%nat
     else P' = P /\ v' = v /\ Forall (fun go => v_contains_all v (g_inputs (fst go)) = false) P).
Proof.
  induction P as [|[g o] P IH]; intros R v I; simpl.
  - exists [], v, false. split; [reflexivity|]. split; [exact I|]. auto.
  - destruct (v_contains_all v (g_inputs g)) eqn:E.
    + destruct (Inv_run R g o P v I E) as (v1 & -> & I1). simpl.
      destruct (IH R v1 I1) as (P' & v' & pr & -> & I' & Hpr). simpl.
      exists P', v', true. split; auto. split; auto. destruct pr; [lia|]. destruct Hpr as (-> & _). lia.
    + destruct (IH (R ++ [(g, o)]) v) as (P' & v' & pr & -> & I' & Hpr).
      { rewrite <- app_assoc. exact I. }
      simpl. exists ((g, o) :: P'), v', pr. split; auto. split.
      * rewrite <- app_assoc in I'. exact I'.
      * destruct pr; [simpl; lia|]. destruct Hpr as (-> & -> & Hf). auto.
Qed.

Lemma stuck_nil P v : Inv P v ->
  Forall (fun go => v_contains_all v (g_inputs (fst go)) = false) P -> P = [].
Proof.
  intros I Hf. destruct P as [|go P0]; auto. exfalso. set (P := go :: P0) in *.
  rewrite Forall_forall in Hf. pose proof (i_gen _ _ I) as G. rewrite Forall_forall in G.
  assert (Step : forall go, In go P -> exists i, In i (g_inputs (fst go)) /\ In i (concat (map snd P))).
  { intros g Hg. specialize (Hf g Hg). unfold v_contains_all in Hf.
    assert (Hex : exists i, In i (g_inputs (fst g)) /\ v_contains v i = false).
    { clear - Hf. induction (g_inputs (fst g)) as [|a l IH]; [discriminate|]. simpl in Hf.
      apply andb_false_iff in Hf. destruct Hf as [Hf|Hf]; [exists a; simpl; auto|].
      destruct (IH Hf) as (i & Hi & E). exists i. simpl. auto. }
    destruct Hex as (i & Hi & E). exists i. split; auto.
    destruct (in_dec Nat.eq_dec i (concat (map snd P))) as [|N]; auto. exfalso.
    destruct (G g Hg) as (_ & Hl & _).
    assert (H : m_get i v = Some (w i)) by (apply (i_some _ _ I); auto).
    unfold v_contains, m_mem in E. rewrite H in E. discriminate. }
  assert (Desc : forall i, ~ In i (concat (map snd P))).
  { intro i. induction i as [i IH] using (well_founded_induction lt_wf). intro Hi.
    apply in_concat in Hi. destruct Hi as (o & Ho & Hio). apply in_map_iff in Ho.
    destruct Ho as (g & <- & Hg). destruct (Step g Hg) as (j & Hj & Hjc).
    destruct (G g Hg) as (_ & _ & Hl). apply (IH j); auto. }
  destruct (Step go) as (i & _ & Hi); [left; reflexivity|]. apply (Desc i), Hi.
Qed.

Lemma exec_loop_inv fuel : forall P v, Inv P v -> (length P < fuel)%nat ->
  exists v', exec_loop fuel (map fst P) v = Ok ([], v') /\ Inv [] v'.
Proof.
  induction fuel as [|fuel IH]; intros P v I L; [lia|]. simpl.
  destruct (exec_pass_inv P [] v I) as (P' & v' & pr & -> & I' & Hpr). simpl in *.
  destruct pr.
  - apply IH; auto. lia.
  - destruct Hpr as (-> & -> & Hf). apply (stuck_nil P v I) in Hf. subst. exists v. auto.
Qed.

End Execute.

Lemma e_evaluate_deps (Hord : 2 <= order) v w e :
  (forall k, In k (e_deps e) -> m_get k v = Some (w k)) -> e_evaluate v e = Ok (ev w e).
Proof.
  intro H. unfold e_evaluate.
  assert (G : forall s, infield s -> exists r, ofold (fun s kc => let! x := v_get v (fst kc) in Ok (fadd s (fmul x (snd kc)))) e s = Ok r
            /\ r mod order = (s + lin w e) mod order /\ infield r).
  { induction e as [|[k c] e IH]; intros s Hs; simpl.
    - exists s. rewrite Z.add_0_r. auto.
    - assert (Hg : v_get v k = Ok (w k)) by (unfold v_get; rewrite (H k) by (left; reflexivity); reflexivity).
      rewrite Hg. simpl.
      destruct (IH (fun k' Hk' => H k' (or_intror Hk')) (fadd s (fmul (w k) c))) as (r & -> & E & I).
      + apply infield_add, Hord.
      + exists r. split; auto. split; auto. rewrite E. unfold fadd, fmul.
        rewrite Zplus_mod_idemp_r, Zplus_mod_idemp_l. f_equal. fold (lin w e). ring. }
  destruct (G fzero (infield_0 Hord)) as (r & -> & E & I). f_equal. unfold ev.
  rewrite <- (Z.mod_small r order) by exact I. rewrite E. reflexivity.
Qed.

Theorem honest_execute (Hord : 2 <= order) b D w v0 : Honest b D [] w ->
  (forall k, D k -> m_get k v0 = Some (w k)) ->
  (forall k, (k < next b)%nat -> ~ D k -> m_get k v0 = None) ->
  exists v, execute (build b) v0 = Ok (true, v) /\ forall k, (k < next b)%nat -> m_get k v = Some (w k).
Proof.
  intros H Hin Hno. destruct (h_gens _ _ _ _ H) as (outs & Hg & ND & Hdis & Hcov). simpl in *.
  set (P := combine (generators b) outs).
  assert (Hlen : length (generators b) = length outs) by (clear - Hg; induction Hg; simpl; congruence).
  assert (Hfst : map fst P = generators b).
  { unfold P. clear - Hlen. revert outs Hlen. induction (generators b) as [|g gs IH]; intros [|o os] L; simpl in *; try discriminate; auto.
    f_equal. apply IH. lia. }
  assert (Hsnd : map snd P = outs).
  { unfold P. clear - Hlen. revert outs Hlen. induction (generators b) as [|g gs IH]; intros [|o os] L; simpl in *; try discriminate; auto.
    f_equal. apply IH. lia. }
  assert (I : Inv (next b) w P v0).
  { split; rewrite ?Hsnd; auto.
    - intros k Hk. apply Hdis, Hk.
    - intros k Hk. destruct (Hdis k Hk). apply Hno; auto.
    - intros k Hk Hn. destruct (Hcov k Hk); [|contradiction]. apply Hin; auto.
    - unfold P. clear - Hg. induction Hg; simpl; constructor; auto. }
  assert (LP : length P = length (generators b)) by (rewrite <- Hfst, map_length; reflexivity).
  destruct (exec_loop_inv (next b) w (S (length (generators b))) P v0 I ltac:(lia)) as (v & E & I').
  rewrite Hfst in E. exists v. unfold execute. simpl. simpl in E. rewrite E. simpl.
  assert (Hv : forall k, (k < next b)%nat -> m_get k v = Some (w k)).
  { intros k Hk. apply (i_some _ _ _ _ I'); auto. }
  split; auto.
  assert (Hall : oall (c_evaluate v) (constraints b) = Ok true).
  { pose proof (h_sat _ _ _ _ H) as S. clear - S Hv Hord. induction S as [|c cs (S1 & Oa & Ob & Oc) _ IH]; simpl; auto.
    unfold c_evaluate. unfold over in *.
    rewrite !(e_evaluate_deps Hord v w) by (intros k Hk; apply Hv; auto). simpl.
    unfold sat1 in S1. unfold fmul. rewrite S1, Z.eqb_refl. exact IH. }
  rewrite Hall. reflexivity.
Qed.

(** ** The triples *)

(** Symbolic state: number of wires and the honest witness. *)
Definition st := (nat * witness)%type.
Definition ext (s s' : st) : Prop :=
  (nx s <= nx s')%nat /\ forall k, (k < nx s)%nat -> wt s' k = wt s k.

Lemma ext_refl s : ext s s.
Proof. split; auto. Qed.
Lemma ext_trans s1 s2 s3 : ext s1 s2 -> ext s2 s3 -> ext s1 s3.
Proof. intros [N1 A1] [N2 A2]. split; [lia|]. intros k Hk. rewrite A2, A1; auto; lia. Qed.

(** Expression [e] has value [c] in the state. *)
Definition has (s : st) (e : expr) (c : Z) : Prop :=
  over (fun k => (k < nx s)%nat) e /\ ev (wt s) e = c.
(** Wire [k] has value [c] in the state. *)
Definition hasw (s : st) (k : nat) (c : Z) : Prop := (k < nx s)%nat /\ wt s k = c.
(** Lists of expressions, elementwise. *)
Definition hasl (s : st) (es : list expr) (cs : list Z) : Prop := Forall2 (has s) es cs.

Lemma has_ext s s' e c : ext s s' -> has s e c -> has s' e c.
Proof.
  intros [N A] [O E]. split.
  - intros k Hk. specialize (O k Hk). simpl in *. lia.
  - rewrite <- E. apply ev_ext. intros k Hk. apply A. apply O, Hk.
Qed.
Lemma hasw_ext s s' k c : ext s s' -> hasw s k c -> hasw s' k c.
Proof. intros [N A] [O E]. split; [lia|]. rewrite A; auto. Qed.
Lemma hasl_ext s s' es cs : ext s s' -> hasl s es cs -> hasl s' es cs.
Proof. intros E H. induction H; constructor; eauto using has_ext. Qed.

Lemma haswl_ext s s' ks cs : ext s s' -> Forall2 (hasw s) ks cs -> Forall2 (hasw s') ks cs.
Proof. intros E H. induction H; constructor; eauto using hasw_ext. Qed.

Definition good (s : st) : Prop := wf_witness (wt s) /\ (0 < nx s)%nat.

Definition Hon (D : nat -> Prop) (b : builder) (P : list nat) (s : st) : Prop :=
  next b = nx s /\ Honest b D P (wt s).

(** The call succeeds, keeps the state honest, and establishes [Q]. *)
Definition comp (D : nat -> Prop) {A} (P : list nat) (s : st) (m : B A)
  (Q : A -> list nat -> st -> Prop) : Prop :=
  forall b, Hon D b P s -> exists a b' P' s', m b = Ok (a, b') /\ Hon D b' P' s' /\ ext s s' /\ Q a P' s'.

(** No pending wires are left behind. *)
Definition done {A} (P : list nat) (Q : A -> st -> Prop) : A -> list nat -> st -> Prop :=
  fun a P' s' => P' = P /\ Q a s'.

Section Rules.
Context (D : nat -> Prop).

Lemma comp_ret {A} P s (a : A) (Q : A -> list nat -> st -> Prop) : Q a P s -> comp D P s (bret a) Q.
Proof. intros H b Hb. exists a, b, P, s. split; [reflexivity|]. split; auto. split; auto. apply ext_refl. Qed.

Lemma comp_lift {A} P s (o : outcome A) a (Q : A -> list nat -> st -> Prop) :
  o = Ok a -> Q a P s -> comp D P s (blift o) Q.
Proof. intros -> H b Hb. exists a, b, P, s. split; [reflexivity|]. split; auto. split; auto. apply ext_refl. Qed.

Lemma Hon_good b P s : Hon D b P s -> good s.
Proof.
  intros [N [H1 H2 H3 _ _]]. split; auto. specialize (H3 _ H2). unfold ONE in H3. lia.
Qed.

Lemma comp_bind {A C} P s (m : B A) (k : A -> B C) Q R :
  comp D P s m Q -> (forall a P1 s1, ext s s1 -> good s1 -> Q a P1 s1 -> comp D P1 s1 (k a) R) ->
  comp D P s (bbind m k) R.
Proof.
  intros H1 H2 b Hb. destruct (H1 b Hb) as (a & b1 & P1 & s1 & E1 & Hb1 & X1 & Q1).
  destruct (H2 a P1 s1 X1 (Hon_good _ _ _ Hb1) Q1 b1 Hb1) as (c & b2 & P2 & s2 & E2 & Hb2 & X2 & Q2).
  exists c, b2, P2, s2. unfold bbind. rewrite E1. repeat (split; [assumption|]). split; auto.
  eapply ext_trans; eauto.
Qed.

Lemma comp_weaken {A} P s (m : B A) (Q R : A -> list nat -> st -> Prop) :
  comp D P s m Q -> (forall a P' s', ext s s' -> good s' -> Q a P' s' -> R a P' s') -> comp D P s m R.
Proof.
  intros H1 H2 b Hb. destruct (H1 b Hb) as (a & b1 & P1 & s1 & E1 & Hb1 & X1 & Q1).
  exists a, b1, P1, s1. pose proof (Hon_good _ _ _ Hb1). auto.
Qed.

Lemma Hon_perm b P P' s : Permutation P P' -> Hon D b P s -> Hon D b P' s.
Proof.
  intros HP [N H]. split; auto. destruct H as [H1 H2 H3 H4 (outs & G1 & G2 & G3 & G4)].
  split; auto. exists outs. split; auto.
  assert (PP : Permutation (P ++ concat outs) (P' ++ concat outs)) by (apply Permutation_app_tail; exact HP).
  split; [eapply Permutation_NoDup; eauto|]. split.
  - intros k Hk. apply G3. eapply Permutation_in; [apply Permutation_sym; exact PP|exact Hk].
  - intros k Hk. destruct (G4 k Hk); auto. right. eapply Permutation_in; eauto.
Qed.

Lemma comp_perm {A} P P' s (m : B A) Q : Permutation P P' -> comp D P' s m Q -> comp D P s m Q.
Proof. intros HP H b Hb. apply H. eapply Hon_perm; eauto. Qed.

(** Facts every honest state satisfies can be used. *)
Lemma comp_hon {A} P s (m : B A) Q :
  (good s -> NoDup P -> (forall k, In k P -> (0 < k < nx s)%nat) -> comp D P s m Q) -> comp D P s m Q.
Proof.
  intros H b Hb. assert (Hb' := Hb). destruct Hb as [N [H1 H2 H3 H4 (outs & G1 & G2 & G3 & G4)]].
  apply H; auto.
  - eapply Hon_good; eauto.
  - apply NoDup_split in G2. tauto.
  - intros k Hk. destruct (G3 k) as [K1 K2]; [apply in_or_app; auto|]. split; [|lia].
    destruct k; [|lia]. exfalso. apply K1. exact H2.
Qed.

Lemma gen_ok_ext w w' g o : (forall i, In i (g_inputs g) -> w' i = w i) -> (forall k, In k o -> w' k = w k) ->
  gen_ok w g o -> gen_ok w' g o.
Proof.
  intros Hi Ho H v H1 H2. destruct (H v) as (v' & E & Hv).
  - intros i I. rewrite <- Hi; auto.
  - exact H2.
  - exists v'. split; auto. intro k. rewrite Hv. destruct (memb k o) eqn:M; auto.
    apply memb_In in M. rewrite Ho; auto.
Qed.

Definition upd (w : witness) (n : nat) (x : Z) : witness := fun k => if (k =? n)%nat then x else w k.

(** A fresh wire may be given any value. *)
Lemma comp_wire P s x : 0 <= x < order ->
  comp D P s b_wire (fun k P' s' => k = nx s /\ P' = k :: P /\ nx s' = S (nx s) /\ hasw s' k x).
Proof.
  intros Hx b [N H]. exists (nx s), (mkB (S (next b)) (constraints b) (generators b)), (nx s :: P),
    (S (nx s), upd (wt s) (nx s) x).
  split; [unfold b_wire; rewrite N; reflexivity|].
  assert (U : forall k, (k < nx s)%nat -> upd (wt s) (nx s) x k = wt s k).
  { intros k Hk. unfold upd. destruct (Nat.eqb_spec k (nx s)); [lia|reflexivity]. }
  destruct H as [H1 H2 H3 H4 (outs & G1 & G2 & G3 & G4)].
  assert (Npos : (0 < nx s)%nat) by (specialize (H3 _ H2); unfold ONE in H3; lia).
  split; [|split; [split; simpl; [lia|exact U]|]];
    [|repeat split; simpl; auto; unfold upd; rewrite Nat.eqb_refl; reflexivity].
  split; [simpl; rewrite N; reflexivity|]. split; simpl.
  - split; [unfold ONE; rewrite U by lia; apply H1|].
    intro k. unfold upd. destruct (k =? nx s)%nat; [lia|apply H1].
  - exact H2.
  - intros k Hk. specialize (H3 k Hk). lia.
  - eapply Forall_impl; [|exact H4]. intros c (S1 & Oa & Ob & Oc). unfold over in *.
    split; [|split; [intros k Hk; specialize (Oa k Hk); lia|split; [intros k Hk; specialize (Ob k Hk); lia|intros k Hk; specialize (Oc k Hk); lia]]].
    unfold sat1 in *.
    rewrite (ev_ext _ (wt s) (c_a c)), (ev_ext _ (wt s) (c_b c)), (ev_ext _ (wt s) (c_c c)); auto;
      intros k Hk; apply U; rewrite <- N; auto.
  - exists outs. split; [|split; [|split]].
    + assert (Ho : forall k, In k (concat outs) -> (k < nx s)%nat).
      { intros k Hk. rewrite <- N. apply G3. apply in_or_app. auto. }
      clear - G1 U Ho N. induction G1 as [|g o gs os (A1 & A2 & A3) _ IH]; constructor.
      * split; [|split; auto].
        -- eapply gen_ok_ext; [| |exact A1].
           ++ intros i Hi. apply U. rewrite <- N. auto.
           ++ intros k Hk. apply U, Ho. simpl. apply in_or_app. auto.
        -- intros i Hi. specialize (A2 i Hi). lia.
      * apply IH. intros k Hk. apply Ho. simpl. apply in_or_app. auto.
    + simpl. constructor; auto. intro C. apply G3 in C. lia.
    + intros k [<-|Hk]; [split; [intro C; apply H3 in C; lia|lia]|].
      destruct (G3 k Hk). split; auto.
    + intros k Hk. simpl. destruct (Nat.eq_dec k (nx s)); [subst; auto|].
      destruct (G4 k ltac:(lia)); auto.
Qed.

Lemma comp_assert_product P s x y z a c r : has s x a -> has s y c -> has s z r -> r = (a * c) mod order ->
  comp D P s (assert_product x y z) (fun _ P' s' => P' = P /\ s' = s).
Proof.
  intros [Ox Ex] [Oy Ey] [Oz Ez] -> b [N H].
  exists tt, (mkB (next b) (constraints b ++ [mkC x y z]) (generators b)), P, s.
  split; [reflexivity|]. split; [|split; [apply ext_refl|auto]]. split; auto.
  destruct H as [H1 H2 H3 H4 H5]. split; auto.
  simpl. apply Forall_app. split; auto. constructor; [|constructor]. simpl. rewrite N.
  split; auto. unfold sat1. simpl. rewrite Ex, Ey, Ez. reflexivity.
Qed.

Lemma comp_generator P P' s deps run o :
  Permutation P (o ++ P') ->
  (forall i, In i deps -> (i < nx s)%nat) ->
  (forall i k, In i deps -> In k o -> (i < k)%nat) ->
  gen_ok (wt s) (mkG deps run) o ->
  comp D P s (b_generator deps run) (fun _ P'' s' => P'' = P' /\ s' = s).
Proof.
  intros HP Hlt Hord Hgen b Hb. apply (Hon_perm b P _ s HP) in Hb. destruct Hb as [N H].
  exists tt, (mkB (next b) (constraints b) (generators b ++ [mkG deps run])), P', s.
  split; [reflexivity|]. split; [|split; [apply ext_refl|auto]]. split; auto.
  destruct H as [H1 H2 H3 H4 (outs & G1 & G2 & G3 & G4)]. split; auto. simpl.
  exists (outs ++ [o]).
  assert (PP : Permutation ((o ++ P') ++ concat outs) (P' ++ concat (outs ++ [o]))).
  { rewrite concat_app. simpl. rewrite app_nil_r. rewrite (app_assoc P' (concat outs) o), <- app_assoc. apply Permutation_app_comm. }
  split; [|split; [|split]].
  - apply Forall2_app; auto. constructor; [|constructor]. split; auto. simpl. split; auto.
    intros i Hi. rewrite N. auto.
  - eapply Permutation_NoDup; eauto.
  - intros k Hk. apply G3. eapply Permutation_in; [apply Permutation_sym; exact PP|exact Hk].
  - intros k Hk. destruct (G4 k Hk); auto. right. eapply Permutation_in; eauto.
Qed.

Lemma comp_bmap {A C} (f : A -> B C) (R : A -> C -> st -> Prop) l P s :
  (forall a c s1 s2, ext s1 s2 -> R a c s1 -> R a c s2) ->
  (forall a s1, In a l -> ext s s1 -> comp D P s1 (f a) (done P (R a))) ->
  comp D P s (bmap f l) (done P (fun cs s' => Forall2 (fun a c => R a c s') l cs)).
Proof.
  intros Hext. revert s. induction l as [|a l IH]; intros s H; simpl.
  - apply comp_ret. split; auto.
  - eapply comp_bind; [apply H; [left; reflexivity|apply ext_refl]|].
    intros c P1 s1 X1 _ [-> R1]. eapply comp_bind; [apply IH|].
    { intros a' s' Ha' X'. apply H; [right; exact Ha'|]. eapply ext_trans; eauto. }
    intros cs P2 s2 X2 _ [-> R2]. apply comp_ret. split; auto. constructor; auto.
    eapply Hext; eauto.
Qed.

Lemma comp_bfold_seq {S} (f : S -> nat -> B S) (I : nat -> S -> st -> Prop) n P :
  forall k s0 x, I k x s0 ->
  (forall i x s1, (k <= i < k + n)%nat -> ext s0 s1 -> I i x s1 ->
                  comp D P s1 (f x i) (done P (I (Datatypes.S i)))) ->
  comp D P s0 (bfold f (seq k n) x) (done P (I (k + n)%nat)).
Proof.
  induction n as [|n IH]; intros k s0 x H0 Hs; simpl.
  - rewrite Nat.add_0_r. apply comp_ret. split; auto.
  - eapply comp_bind; [apply Hs; [lia|apply ext_refl|exact H0]|].
    intros x' P1 s1 X1 _ [-> H1]. rewrite <- Nat.add_succ_comm. apply IH; auto.
    intros i y s2 Hi X2 HI. apply Hs; [lia| |exact HI]. eapply ext_trans; eauto.
Qed.

End Rules.
End Honest.
