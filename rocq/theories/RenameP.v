(** Builder calls on corresponding wires: expressions, values, outcomes, the builder monad. *)
From Coq Require Import ZArith List Bool Arith Lia Sorted Permutation.
From Verif Require Import Base FieldM FieldP ExprM BuilderM CryptoM Spec ExprP CoreP SpecRename.
Import ListNotations.
Open Scope Z_scope.

(** ** Lists *)
Lemma Forall2_len {A A'} (R : A -> A' -> Prop) l l' : Forall2 R l l' -> length l' = length l.
Proof. induction 1; simpl; auto. Qed.
Lemma F2_nth {A A'} (R : A -> A' -> Prop) l l' i : Forall2 R l l' ->
  match nth_error l i, nth_error l' i with Some a, Some a' => R a a' | None, None => True | _, _ => False end.
Proof. intro H. revert i. induction H; intros [|i]; simpl; auto. apply IHForall2. Qed.
Lemma F2_firstn {A A'} (R : A -> A' -> Prop) n l l' : Forall2 R l l' -> Forall2 R (firstn n l) (firstn n l').
Proof. intro H. revert n. induction H; intros [|n]; simpl; constructor; auto. Qed.
Lemma F2_skipn {A A'} (R : A -> A' -> Prop) n l l' : Forall2 R l l' -> Forall2 R (skipn n l) (skipn n l').
Proof. intro H. revert n. induction H; intros [|n]; simpl; auto. Qed.
Lemma F2_rev {A A'} (R : A -> A' -> Prop) l l' : Forall2 R l l' -> Forall2 R (rev l) (rev l').
Proof. induction 1; simpl; [constructor|]. apply Forall2_app; auto. Qed.
Lemma F2_map {A A' C C'} (R : A -> A' -> Prop) (S : C -> C' -> Prop) f f' l l' :
  (forall a a', R a a' -> S (f a) (f' a')) -> Forall2 R l l' -> Forall2 S (map f l) (map f' l').
Proof. intros H. induction 1; simpl; constructor; auto. Qed.
Lemma F2_repeat {A A'} (R : A -> A' -> Prop) a a' n : R a a' -> Forall2 R (repeat a n) (repeat a' n).
Proof. intro. induction n; simpl; constructor; auto. Qed.
Definition pair_rel {A A' C C'} (R : A -> A' -> Prop) (S : C -> C' -> Prop) (p : A * C) (p' : A' * C') : Prop := R (fst p) (fst p') /\ S (snd p) (snd p').
Lemma F2_combine {A A' C C'} (R : A -> A' -> Prop) (S : C -> C' -> Prop) l l' m m' :
  Forall2 R l l' -> Forall2 S m m' -> Forall2 (pair_rel R S) (combine l m) (combine l' m').
Proof. intro H. revert m m'. induction H; intros m m' Hm; simpl; [constructor|]. destruct Hm; constructor; auto. split; auto. Qed.
Lemma F2_refl {A} (l : list A) : Forall2 eq l l.
Proof. induction l; constructor; auto. Qed.
Lemma F2_enumerate {A A'} (R : A -> A' -> Prop) l l' : Forall2 R l l' -> Forall2 (pair_rel eq R) (enumerate l) (enumerate l').
Proof. intro H. unfold enumerate. rewrite (Forall2_len _ _ _ H). apply F2_combine; [apply F2_refl|exact H]. Qed.
Lemma F2_chunks_fuel {A A'} (R : A -> A' -> Prop) f n l l' : Forall2 R l l' -> Forall2 (Forall2 R) (chunks_fuel f n l) (chunks_fuel f n l').
Proof.
  revert l l'. induction f as [|f IH]; intros l l' H; simpl; [constructor|]. destruct H as [|a a' l l' H1 H2]; [constructor|].
  constructor; [apply F2_firstn; constructor; auto|]. apply IH, F2_skipn. constructor; auto.
Qed.
Lemma F2_concat {A A'} (R : A -> A' -> Prop) l l' : Forall2 (Forall2 R) l l' -> Forall2 R (concat l) (concat l').
Proof. induction 1; simpl; [constructor|]. apply Forall2_app; auto. Qed.
Lemma fold_left_rel {A A' S S'} (R : A -> A' -> Prop) (P : S -> S' -> Prop) f f' l l' s s' :
  (forall s s' a a', P s s' -> R a a' -> P (f s a) (f' s' a')) -> Forall2 R l l' -> P s s' -> P (fold_left f l s) (fold_left f' l' s').
Proof. intros H HL. revert s s'. induction HL; simpl; auto. Qed.

(** ** Outcomes *)
Lemma so_bind {A A' C C'} (R : A -> A' -> Prop) (S : C -> C' -> Prop) m m' k k' :
  same_outcome R m m' -> (forall a a', R a a' -> same_outcome S (k a) (k' a')) -> same_outcome S (obind m k) (obind m' k').
Proof. destruct m, m'; simpl; try tauto. intros H K. apply K, H. Qed.
Lemma so_eq {A} (o : outcome A) : same_outcome eq o o.
Proof. destruct o; simpl; auto. Qed.
Lemma so_imp {A A'} (R S : A -> A' -> Prop) o o' : (forall a a', R a a' -> S a a') -> same_outcome R o o' -> same_outcome S o o'.
Proof. intro H. destruct o, o'; simpl; auto. Qed.
Lemma so_ounwrap {A A'} (R : A -> A' -> Prop) o o' :
  match o, o' with Some a, Some a' => R a a' | None, None => True | _, _ => False end -> same_outcome R (ounwrap o) (ounwrap o').
Proof. destruct o, o'; simpl; auto. Qed.
Lemma so_oindex {A A'} (R : A -> A' -> Prop) l l' i : Forall2 R l l' -> same_outcome R (oindex l i) (oindex l' i).
Proof. intro H. apply so_ounwrap, F2_nth, H. Qed.
Lemma so_ofold {A A' S S'} (R : A -> A' -> Prop) (P : S -> S' -> Prop) f f' l l' s s' :
  (forall s s' a a', P s s' -> R a a' -> same_outcome P (f s a) (f' s' a')) -> Forall2 R l l' -> P s s' -> same_outcome P (ofold f l s) (ofold f' l' s').
Proof. intros H HL. revert s s'. induction HL; simpl; auto. intros s s' Hs. eapply so_bind; [apply H; eassumption|auto]. Qed.
Lemma so_omap {A A' C C'} (R : A -> A' -> Prop) (S : C -> C' -> Prop) f f' l l' :
  (forall a a', R a a' -> same_outcome S (f a) (f' a')) -> Forall2 R l l' -> same_outcome (Forall2 S) (omap f l) (omap f' l').
Proof.
  intros H. induction 1; simpl; [constructor|]. eapply so_bind; [apply H; eassumption|]. intros c c' Hc.
  eapply so_bind; [eassumption|]. intros; simpl; auto.
Qed.
Lemma so_chunks {A A'} (R : A -> A' -> Prop) n l l' : Forall2 R l l' -> same_outcome (Forall2 (Forall2 R)) (chunks n l) (chunks n l').
Proof. intro H. unfold chunks. destruct (n =? 0)%nat; simpl; auto. rewrite (Forall2_len _ _ _ H). apply F2_chunks_fuel, H. Qed.

Section Rename.
Context {F : Field} (Hord : 2 <= order).
Variable W : nat -> nat -> Prop.
Hypothesis HW : one_to_one W.
Local Notation er := (same_expr W).
Local Notation vr := (same_values W).

(** ** Maps *)
Lemma W_eqb a a' b b' : W a a' -> W b b' -> (a' =? b')%nat = (a =? b)%nat.
Proof using HW. intros H1 H2. pose proof (proj2 HW _ _ _ _ H1 H2). destruct (Nat.eqb_spec a b), (Nat.eqb_spec a' b'); tauto. Qed.

Lemma sm_nil {V} : same_map W (@nil (nat * V)) [].
Proof. repeat split; try constructor; simpl; congruence. Qed.

Lemma sm_alter {V} (u : option V -> V) k k' m m' : W k k' -> same_map W m m' -> same_map W (m_alter u k m) (m_alter u k' m').
Proof using HW.
  intros Hk (S & S' & G & D & D'). repeat split; try (apply m_alter_sorted; assumption).
  - intros a a' Ha. pose proof (W_eqb _ _ _ _ Ha Hk) as Q. destruct (Nat.eqb_spec a k), (Nat.eqb_spec a' k'); try discriminate; subst.
    + rewrite !m_get_alter_same, (G k k' Hk) by assumption. reflexivity.
    + rewrite !m_get_alter_other by assumption. apply G, Ha.
  - intros a Ha. destruct (Nat.eq_dec a k) as [->|N]; [eauto|]. rewrite m_get_alter_other in Ha by assumption. auto.
  - intros a Ha. destruct (Nat.eq_dec a k') as [->|N]; [eauto|]. rewrite m_get_alter_other in Ha by assumption. auto.
Qed.

(** Entries correspond, up to their order. *)
Definition entry_rel {V} : nat * V -> nat * V -> Prop := pair_rel W eq.
Lemma sm_entries {V} (x x' : list (nat * V)) : same_map W x x' -> exists y, Permutation x' y /\ Forall2 entry_rel x y.
Proof using HW.
  intros (S & S' & G & D & D').
  assert (E : forall l, incl l x -> exists y, Forall2 entry_rel l y /\ forall p, In p y -> In p x').
  { induction l as [|[k c] l IH]; intro I; [exists []; split; [constructor|contradiction]|].
    destruct IH as (y & Hy & Iy); [intros p Hp; apply I; right; exact Hp|].
    assert (K : m_get k x = Some c) by (apply m_get_sorted_In; [assumption|]; apply I; left; reflexivity).
    destruct (D k) as [k' Hk]; [congruence|]. exists ((k', c) :: y). split; [constructor; [split; auto|exact Hy]|].
    intros p [<-|Hp]; [|auto]. apply m_get_In. rewrite <- (G k k' Hk). exact K. }
  destruct (E x (incl_refl x)) as (y & Hy & Iy). exists y. split; [|exact Hy].
  assert (ND : forall z : list (nat * V), StronglySorted wire_lt (map fst z) -> NoDup z).
  { intros z Hz. apply (NoDup_map_inv fst). clear -Hz. induction Hz as [|a l Hz IH Ha]; constructor; auto.
    intro I. rewrite Forall_forall in Ha. exact (wire_lt_irrefl _ (Ha _ I)). }
  assert (NDy : NoDup y).
  { pose proof (ND x S) as Nx. clear - Nx Hy HW S. assert (forall k, In k (map fst y) -> exists j, W j k /\ In j (map fst x)).
    { clear -Hy. induction Hy as [|p q l l' [H1 H2] H IH]; simpl; [contradiction|]. intros k [<-|I]; [eauto|]. destruct (IH _ I) as (j & ? & ?). eauto. }
    clear H Nx. induction Hy as [|p q l l' [H1 H2] H IH]; constructor.
    - intro I. simpl in S. inversion S as [|? ? S1 S2]; subst. apply (in_map fst) in I.
      assert (X : exists j, W j (fst q) /\ In j (map fst l)).
      { clear -H I. induction H as [|a b l l' [H1 H2] H IH]; simpl in *; [contradiction|]. destruct I as [I|I]; [rewrite <- I; eauto|].
        destruct (IH I) as (j & ? & ?). eauto. }
      destruct X as (j & Wj & Ij). pose proof (proj2 (proj2 HW _ _ _ _ H1 Wj) eq_refl) as Q. rewrite Q in S2.
      rewrite Forall_forall in S2. exact (wire_lt_irrefl _ (S2 _ Ij)).
    - apply IH. inversion S; assumption. }
  apply NoDup_Permutation; [apply ND, S'|exact NDy|]. intros [k' c]. split; [|apply Iy].
  intro I. apply m_get_sorted_In in I; [|exact S']. destruct (D' k') as [k Hk]; [congruence|].
  rewrite <- (G k k' Hk) in I. apply m_get_In in I.
  clear - I Hk Hy HW. induction Hy as [|[a b] [a' b'] l l' [H1 H2] H IH]; simpl in *; [contradiction|].
  destruct I as [I|I]; [|auto]. inversion I; subst. left. f_equal. apply (proj2 HW _ _ _ _ H1 Hk). reflexivity.
Qed.

Lemma sm_length {V} (x x' : list (nat * V)) : same_map W x x' -> length x' = length x.
Proof using HW. intro H. destruct (sm_entries _ _ H) as (y & P & E). rewrite (Permutation_length P). exact (Forall2_len _ _ _ E). Qed.

(** ** Expressions *)
Lemma m_get_map {V U} (f : V -> U) k m : m_get k (map (fun kv => (fst kv, f (snd kv))) m) = option_map f (m_get k m).
Proof. induction m as [|[a v] m IH]; simpl; auto. destruct (k =? a)%nat; auto. Qed.
Lemma sm_map {V U} (f : V -> U) x x' : same_map W x x' ->
  same_map W (map (fun kv => (fst kv, f (snd kv))) x) (map (fun kv => (fst kv, f (snd kv))) x').
Proof.
  intros (S & S' & G & D & D'). repeat split.
  - rewrite map_map. exact S.
  - rewrite map_map. exact S'.
  - intros k k' Hk. rewrite !m_get_map, (G k k' Hk). reflexivity.
  - intros k. rewrite m_get_map. intro H. apply D. destruct (m_get k x); simpl in *; congruence.
  - intros k. rewrite m_get_map. intro H. apply D'. destruct (m_get k x'); simpl in *; congruence.
Qed.

Lemma m_get_new k m : StronglySorted wire_lt (map fst m) ->
  m_get k (e_new m) = match m_get k m with Some c => if c =? 0 then None else Some c | None => None end.
Proof.
  induction m as [|[a v] m IH]; intro S; simpl; auto. simpl in S. inversion S as [|? ? S1 S2]; subst. unfold e_new in *. specialize (IH S1).
  destruct (Nat.eqb_spec k a) as [->|N].
  - destruct (Z.eqb_spec v 0); simpl; [|rewrite Nat.eqb_refl; reflexivity]. rewrite IH.
    replace (m_get a m) with (@None Z); [reflexivity|]. symmetry. apply m_get_None. intro I. rewrite Forall_forall in S2. exact (wire_lt_irrefl _ (S2 _ I)).
  - destruct (v =? 0); simpl; [exact IH|]. destruct (Nat.eqb_spec k a); [contradiction|exact IH].
Qed.
Lemma er_new x x' : same_map W x x' -> er (e_new x) (e_new x').
Proof.
  intros (S & S' & G & D & D'). repeat split; try (apply filter_sorted; assumption).
  - intros k k' Hk. rewrite !m_get_new, (G k k' Hk) by assumption. reflexivity.
  - intros k. rewrite m_get_new by assumption. intro H. apply D. destruct (m_get k x); congruence.
  - intros k. rewrite m_get_new by assumption. intro H. apply D'. destruct (m_get k x'); congruence.
Qed.

Lemma m_get_fold_add k b : forall a, StronglySorted wire_lt (map fst a) -> NoDup (map fst b) ->
  m_get k (fold_left (fun m kc => m_add (fst kc) (snd kc) m) b a) =
  match m_get k b with Some c => Some (fadd (match m_get k a with Some v => v | None => fzero end) c) | None => m_get k a end.
Proof.
  induction b as [|[j c] b IH]; intros a S N; simpl; auto. simpl in N. inversion N as [|? ? N1 N2]; subst.
  assert (S2 : StronglySorted wire_lt (map fst (m_add j c a))) by (apply m_alter_sorted, S).
  rewrite (IH _ S2 N2). destruct (Nat.eqb_spec k j) as [->|Nk].
  - apply m_get_None in N1. rewrite N1. unfold m_add. rewrite m_get_alter_same by exact S. reflexivity.
  - unfold m_add. rewrite m_get_alter_other by exact Nk. reflexivity.
Qed.
Lemma ss_nodup {V} (m : list (nat * V)) : StronglySorted wire_lt (map fst m) -> NoDup (map fst m).
Proof. intro Hz. induction Hz as [|a l Hz IH Ha]; constructor; auto. intro I. rewrite Forall_forall in Ha. exact (wire_lt_irrefl _ (Ha _ I)). Qed.
Lemma ss_fold_add b : forall a : list (nat * Z), StronglySorted wire_lt (map fst a) ->
  StronglySorted wire_lt (map fst (fold_left (fun m kc => m_add (fst kc) (snd kc) m) b a)).
Proof. induction b as [|[j c] b IH]; intros a S; simpl; auto. apply IH, m_alter_sorted, S. Qed.
Lemma sm_fold_add a a' b b' : same_map W a a' -> same_map W b b' ->
  same_map W (fold_left (fun m kc => m_add (fst kc) (snd kc) m) b a) (fold_left (fun m kc => m_add (fst kc) (snd kc) m) b' a').
Proof.
  intros (S & S' & G & D & D') (T & T' & H & E & E'). repeat split; try (apply ss_fold_add; assumption).
  - intros k k' Hk. rewrite !m_get_fold_add, (G k k' Hk), (H k k' Hk) by (auto using ss_nodup). reflexivity.
  - intros k. rewrite m_get_fold_add by (auto using ss_nodup). specialize (D k). specialize (E k).
    destruct (m_get k b); intro Q; [apply E; congruence|apply D; congruence].
  - intros k. rewrite m_get_fold_add by (auto using ss_nodup). specialize (D' k). specialize (E' k).
    destruct (m_get k b'); intro Q; [apply E'; congruence|apply D'; congruence].
Qed.

Lemma er_zero : er e_zero e_zero.
Proof. apply sm_nil. Qed.
Lemma er_const c : er (e_const c) (e_const c).
Proof using HW. apply er_new. unfold m_collect. simpl. apply sm_alter; [apply HW|apply sm_nil]. Qed.
Lemma er_one : er e_one e_one.
Proof using HW. apply er_const. Qed.
Lemma er_bool b : er (e_bool b) (e_bool b).
Proof using HW. apply er_const. Qed.
Lemma er_wire w w' : W w w' -> er (e_wire w) (e_wire w').
Proof using HW. intro H. apply er_new. unfold m_collect. simpl. apply sm_alter; [exact H|apply sm_nil]. Qed.
Lemma er_add x x' y y' : er x x' -> er y y' -> er (e_add x y) (e_add x' y').
Proof. intros. apply er_new. apply sm_fold_add; assumption. Qed.
Lemma er_scale x x' c : er x x' -> er (e_scale x c) (e_scale x' c).
Proof. intro. apply er_new. apply (sm_map (fun z => fmul z c)). assumption. Qed.
Lemma er_neg x x' : er x x' -> er (e_neg x) (e_neg x').
Proof. apply er_scale. Qed.
Lemma er_sub x x' y y' : er x x' -> er y y' -> er (e_sub x y) (e_sub x' y').
Proof. intros. apply er_add; [assumption|apply er_neg; assumption]. Qed.
Lemma er_sum es es' : Forall2 er es es' -> er (e_sum es) (e_sum es').
Proof. intro H. apply er_new. revert H. assert (same_map W (@nil (nat * Z)) []) as N by apply sm_nil. revert N.
  generalize (@nil (nat * Z)) at 1 3. generalize (@nil (nat * Z)). intros m' m N H. revert m m' N. induction H; simpl; auto. intros. apply IHForall2. apply sm_fold_add; auto. Qed.
Lemma er_sum_of_wires ws ws' : Forall2 W ws ws' -> er (e_sum_of_wires ws) (e_sum_of_wires ws').
Proof using HW.
  intro H. unfold e_sum_of_wires, m_collect. apply (fold_left_rel entry_rel (same_map W)).
  - intros s s' [k c] [k' c'] Hs [H1 H2]. simpl in *. subst. apply sm_alter; assumption.
  - apply (F2_map W); [|exact H]. intros. split; auto.
  - apply sm_nil.
Qed.
Lemma er_as_constant x x' : er x x' -> e_as_constant x' = e_as_constant x.
Proof using HW. intro H. unfold e_as_constant, e_num_terms. rewrite (sm_length _ _ H). destruct H as (_ & _ & G & _). rewrite (G _ _ (proj1 HW)). reflexivity. Qed.
Lemma er_scale_u128 x x' n : er x x' -> same_outcome er (e_scale_u128 x n) (e_scale_u128 x' n).
Proof using HW.
  intro H. pose proof (er_scale x x' n H) as S. pose proof (sm_length _ _ H) as L. unfold e_scale_u128, fmul_u128.
  unfold el_from. destruct (n <? order) eqn:E; simpl.
  - assert (Q : forall l : expr, omap (fun kv => let! c := Ok (fmul (snd kv) n) in Ok (fst kv, c)) l = Ok (map (fun kv => (fst kv, fmul (snd kv) n)) l)).
    { induction l as [|[k c] l IH]; simpl; auto. simpl in IH. rewrite IH. reflexivity. }
    simpl in Q. rewrite !Q. simpl. exact S.
  - destruct x, x'; try discriminate; simpl; auto.
Qed.

(** ** Values *)
Lemma vr_contains v v' k k' : vr v v' -> W k k' -> v_contains v' k' = v_contains v k.
Proof. intros H K. unfold v_contains, m_mem. rewrite (H k k' K). reflexivity. Qed.
Lemma vr_get v v' k k' : vr v v' -> W k k' -> same_outcome eq (v_get v k) (v_get v' k').
Proof. intros H K. unfold v_get. rewrite (H k k' K). apply so_eq. Qed.
Lemma vr_contains_all v v' d d' : vr v v' -> same_wires W d d' -> v_contains_all v' d' = v_contains_all v d.
Proof.
  intros H [D D']. apply eq_true_iff_eq. unfold v_contains_all. rewrite !forallb_forall. split.
  - intros Q k I. destruct (D k I) as (k' & K & I'). rewrite <- (vr_contains v v' k k' H K). auto.
  - intros Q k' I. destruct (D' k' I) as (k & K & I'). rewrite (vr_contains v v' k k' H K). auto.
Qed.
Lemma vr_set v v' k k' x : vr v v' -> W k k' -> same_outcome vr (v_set k x v) (v_set k' x v').
Proof using HW.
  intros H K. unfold v_set. pose proof (H k k' K) as E. rewrite <- E. destruct (m_get k v) eqn:G; simpl; auto.
  intros a a' A. pose proof (W_eqb _ _ _ _ A K) as Q. destruct (Nat.eqb_spec a k), (Nat.eqb_spec a' k'); try discriminate; subst.
  - rewrite !m_get_insert_fresh by congruence. reflexivity.
  - unfold m_insert. rewrite !m_get_alter_other by assumption. apply H, A.
Qed.
Lemma vr_set_boolean v v' k k' x : vr v v' -> W k k' -> same_outcome vr (v_set_boolean k x v) (v_set_boolean k' x v').
Proof using HW. apply vr_set. Qed.

Lemma e_evaluate_missing v e : (exists k, In k (e_deps e) /\ m_get k v = None) -> e_evaluate v e = Panic.
Proof.
  intros (k & I & N). unfold e_evaluate. generalize fzero. induction e as [|[j c] e IH]; simpl in *; [contradiction|]. intro s.
  unfold v_get. destruct (m_get j v) eqn:G; simpl; [|reflexivity]. destruct I as [->|I]; [congruence|]. apply IH, I.
Qed.
Lemma vr_evaluate v v' x x' : vr v v' -> er x x' -> e_evaluate v' x' = e_evaluate v x.
Proof using HW Hord.
  intros H E. destruct (sm_entries _ _ E) as (y & P & EY).
  assert (KS : forall k' , In k' (e_deps x') <-> exists k, W k k' /\ In k (e_deps x)).
  { intro k'. unfold e_deps. destruct E as (S & S' & G & D & D'). split; intro I.
    - assert (m_get k' x' <> None) by (intro Q; apply m_get_None in Q; contradiction). destruct (D' k' H0) as [k K].
      exists k. split; [exact K|]. rewrite <- (G k k' K) in H0. destruct (in_dec Nat.eq_dec k (map fst x)); auto. exfalso. apply H0, m_get_None. assumption.
    - destruct I as (k & K & I). destruct (in_dec Nat.eq_dec k' (map fst x')); auto. apply m_get_None in n. rewrite <- (G k k' K) in n. apply m_get_None in n. contradiction. }
  destruct (forallb (v_contains v) (e_deps x)) eqn:C.
  - rewrite forallb_forall in C.
    set (w := fun k => match m_get k v with Some z => z | None => 0 end). set (w' := fun k => match m_get k v' with Some z => z | None => 0 end).
    rewrite (e_evaluate_ok Hord v w x), (e_evaluate_ok Hord v' w' x').
    + f_equal. unfold ev. f_equal. assert (L : lin w' x' = lin w' y).
      { clear -P. unfold lin. induction P; simpl; try lia. }
      rewrite L. clear - EY H. induction EY as [|[a c] [a' c'] l l' [H1 H2] Q IH]; [reflexivity|]. simpl in *. subst c'. unfold lin in IH |- *. simpl. rewrite IH.
      unfold w, w'. rewrite (H a a' H1). reflexivity.
    + intros k z Q. unfold w'. rewrite Q. reflexivity.
    + intros k' I. apply KS in I. destruct I as (k & K & I). rewrite <- (H k k' K). specialize (C k I). unfold v_contains, m_mem in C. destruct (m_get k v); congruence.
    + intros k z Q. unfold w. rewrite Q. reflexivity.
    + intros k I. specialize (C k I). unfold v_contains, m_mem in C. destruct (m_get k v); congruence.
  - assert (X : exists k, In k (e_deps x) /\ m_get k v = None).
    { clear -C. induction (e_deps x) as [|k l IH]; simpl in C; [discriminate|]. apply andb_false_iff in C. destruct C as [C|C].
      - exists k. split; [left; reflexivity|]. unfold v_contains, m_mem in C. destruct (m_get k v); congruence.
      - destruct (IH C) as (j & ? & ?). exists j. split; [right; assumption|assumption]. }
    rewrite (e_evaluate_missing v x X). apply e_evaluate_missing. destruct X as (k & I & N).
    assert (G : m_get k x <> None) by (intro Q; apply m_get_None in Q; contradiction). destruct E as (S & S' & G' & D & D').
    destruct (D k G) as [k' K]. exists k'. split; [apply KS; eauto|]. rewrite <- (H k k' K). exact N.
Qed.
Lemma vr_eval v v' x x' : vr v v' -> er x x' -> same_outcome eq (e_evaluate v x) (e_evaluate v' x').
Proof using HW Hord. intros. rewrite (vr_evaluate v v' x x') by assumption. apply so_eq. Qed.
Lemma vr_evals v v' l l' : vr v v' -> Forall2 er l l' -> same_outcome eq (omap (e_evaluate v) l) (omap (e_evaluate v') l').
Proof using HW Hord.
  intros H L. replace (omap (e_evaluate v') l') with (omap (e_evaluate v) l); [apply so_eq|].
  induction L; simpl; auto. rewrite (vr_evaluate v v' x y) by assumption. rewrite IHL. reflexivity.
Qed.

(** Wires *)
Lemma sw_deps x x' : er x x' -> same_wires W (e_deps x) (e_deps x').
Proof.
  intros (S & S' & G & D & D'). unfold e_deps. split; intros k I.
  - assert (Q : m_get k x <> None) by (intro Q; apply m_get_None in Q; contradiction). destruct (D k Q) as [k' K]. exists k'. split; [exact K|].
    rewrite (G k k' K) in Q. destruct (in_dec Nat.eq_dec k' (map fst x')) as [|n]; auto. apply m_get_None in n. contradiction.
  - assert (Q : m_get k x' <> None) by (intro Q; apply m_get_None in Q; contradiction). destruct (D' k Q) as [k' K]. exists k'. split; [exact K|].
    rewrite <- (G k' k K) in Q. destruct (in_dec Nat.eq_dec k' (map fst x)) as [|n]; auto. apply m_get_None in n. contradiction.
Qed.
Lemma sw_app a a' b b' : same_wires W a a' -> same_wires W b b' -> same_wires W (a ++ b) (a' ++ b').
Proof.
  intros [H1 H2] [H3 H4]. split; intros k I; apply in_app_or in I; destruct I as [I|I].
  - destruct (H1 k I) as (j & ? & ?). exists j. split; auto. apply in_or_app; auto.
  - destruct (H3 k I) as (j & ? & ?). exists j. split; auto. apply in_or_app; auto.
  - destruct (H2 k I) as (j & ? & ?). exists j. split; auto. apply in_or_app; auto.
  - destruct (H4 k I) as (j & ? & ?). exists j. split; auto. apply in_or_app; auto.
Qed.
Lemma sw_nil : same_wires W [] [].
Proof. split; intros k []. Qed.
Lemma sw_flat_map l l' : Forall2 er l l' -> same_wires W (flat_map e_deps l) (flat_map e_deps l').
Proof. induction 1; simpl; [apply sw_nil|]. apply sw_app; [apply sw_deps|]; assumption. Qed.
Lemma bin_deps_in k x : In k (bin_deps x) <-> In k (flat_map e_deps x).
Proof.
  unfold bin_deps. generalize (flat_map e_deps x) as l. intro l.
  assert (G : forall m : list (nat * unit), In k (map fst (fold_left (fun s w => m_insert w tt s) l m)) <-> In k l \/ In k (map fst m)).
  { induction l as [|j l IH]; intro m; simpl; [tauto|]. rewrite IH. unfold m_insert. rewrite m_alter_keys. intuition. }
  rewrite G. simpl. tauto.
Qed.
Lemma sw_bin_deps x x' : Forall2 er x x' -> same_wires W (bin_deps x) (bin_deps x').
Proof.
  intro H. destruct (sw_flat_map _ _ H) as [H1 H2]. split; intros k I; apply bin_deps_in in I.
  - destruct (H1 k I) as (j & ? & ?). exists j. split; auto. apply bin_deps_in. assumption.
  - destruct (H2 k I) as (j & ? & ?). exists j. split; auto. apply bin_deps_in. assumption.
Qed.

(** ** Builder calls *)
Lemma sc_ret {A A'} (R : A -> A' -> Prop) a a' : R a a' -> same_call W R (bret a) (bret a').
Proof.
  intros H b b' S. simpl. split; [exact H|]. exists 0%nat, [], [], [], []. rewrite !Nat.add_0_r, !app_nil_r. destruct b, b'. repeat split; constructor.
Qed.
Lemma sc_bind {A A' C C'} (R : A -> A' -> Prop) (Q : C -> C' -> Prop) m m' k k' :
  same_call W R m m' -> (forall a a', R a a' -> same_call W Q (k a) (k' a')) -> same_call W Q (bbind m k) (bbind m' k').
Proof.
  intros H K b b' S. specialize (H b b' S). unfold bbind. destruct (m b) as [[a b1]| |], (m' b') as [[a' b1']| |]; simpl in H; try tauto; simpl.
  destruct H as (Ha & n & cs & cs' & gs & gs' & E & E' & HC & HG). simpl in *.
  assert (S1 : same_fresh W b1 b1') by (subst; intro i; simpl; rewrite <- !Nat.add_assoc; apply S).
  specialize (K a a' Ha b1 b1' S1). destruct (k a b1) as [[c b2]| |], (k' a' b1') as [[c' b2']| |]; simpl in K; try tauto; simpl.
  destruct K as (Hc & n2 & cs2 & cs2' & gs2 & gs2' & E2 & E2' & HC2 & HG2). simpl in *. split; [exact Hc|].
  exists (n + n2)%nat, (cs ++ cs2), (cs' ++ cs2'), (gs ++ gs2), (gs' ++ gs2'). subst. simpl in *. rewrite !Nat.add_assoc, !app_assoc. repeat split; auto using Forall2_app.
Qed.
Lemma sc_lift {A A'} (R : A -> A' -> Prop) o o' : same_outcome R o o' -> same_call W R (blift o) (blift o').
Proof. intros H b b' S. unfold blift. destruct o, o'; simpl in *; try tauto. exact (sc_ret R a a0 H b b' S). Qed.
Lemma sc_imp {A A'} (R Q : A -> A' -> Prop) m m' : (forall a a', R a a' -> Q a a') -> same_call W R m m' -> same_call W Q m m'.
Proof. intros I H b b' S. specialize (H b b' S). destruct (m b) as [[a b1]| |], (m' b') as [[a' b1']| |]; simpl in *; try tauto. destruct H. split; auto. Qed.
Lemma sc_map {A A' C C'} (R : A -> A' -> Prop) (Q : C -> C' -> Prop) f f' l l' :
  (forall a a', R a a' -> same_call W Q (f a) (f' a')) -> Forall2 R l l' -> same_call W (Forall2 Q) (bmap f l) (bmap f' l').
Proof.
  intro H. induction 1; simpl; [apply sc_ret; constructor|]. eapply sc_bind; [apply H; eassumption|]. intros c c' Hc.
  eapply sc_bind; [eassumption|]. intros. apply sc_ret. constructor; auto.
Qed.
Lemma sc_map_seq {C C'} (Q : C -> C' -> Prop) f f' s n : (forall i, same_call W Q (f i) (f' i)) -> same_call W (Forall2 Q) (bmap f (seq s n)) (bmap f' (seq s n)).
Proof. intro H. apply (sc_map eq); [|apply F2_refl]. intros a ? <-. apply H. Qed.
Lemma sc_fold {A A' S S'} (R : A -> A' -> Prop) (Q : S -> S' -> Prop) f f' l l' s s' :
  (forall s s' a a', Q s s' -> R a a' -> same_call W Q (f s a) (f' s' a')) -> Forall2 R l l' -> Q s s' -> same_call W Q (bfold f l s) (bfold f' l' s').
Proof. intros H HL. revert s s'. induction HL; simpl; intros s s' Hs; [apply sc_ret, Hs|]. eapply sc_bind; [apply H; eassumption|]. auto. Qed.
Lemma sc_fold_seq {A S S'} (Q : S -> S' -> Prop) f f' (l : list A) s s' :
  (forall s s' a, Q s s' -> same_call W Q (f s a) (f' s' a)) -> Q s s' -> same_call W Q (bfold f l s) (bfold f' l s').
Proof. intros H. apply (sc_fold eq); [|apply F2_refl]. intros ? ? a ? ? <-. auto. Qed.

Lemma sc_wire : same_call W W b_wire b_wire.
Proof.
  intros b b' S. simpl. split; [specialize (S 0%nat); rewrite !Nat.add_0_r in S; exact S|].
  exists 1%nat, [], [], [], []. rewrite !Nat.add_1_r, !app_nil_r. repeat split; constructor.
Qed.
Lemma sc_wires n : same_call W (Forall2 W) (b_wires n) (b_wires n).
Proof. apply sc_map_seq. intro. apply sc_wire. Qed.
Lemma sc_generator d d' run run' : same_wires W d d' -> (forall v v', vr v v' -> same_outcome vr (run v) (run' v')) ->
  same_call W eq (b_generator d run) (b_generator d' run').
Proof.
  intros H K b b' S. simpl. split; [reflexivity|]. exists 0%nat, [], [], [mkG d run], [mkG d' run'].
  rewrite !Nat.add_0_r, !app_nil_r. repeat split; auto; try constructor; try apply H; [|constructor]. split; assumption.
Qed.
Lemma sc_assert_product x x' y y' z z' : er x x' -> er y y' -> er z z' -> same_call W eq (assert_product x y z) (assert_product x' y' z').
Proof.
  intros H1 H2 H3 b b' S. simpl. split; [reflexivity|]. exists 0%nat, [mkC x y z], [mkC x' y' z'], [], [].
  rewrite !Nat.add_0_r, !app_nil_r. repeat split; auto; try constructor; [|constructor]. repeat split; assumption || apply H1 || apply H2 || apply H3.
Qed.
End Rename.
