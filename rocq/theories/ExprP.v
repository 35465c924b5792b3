(** Proofs about expressions, wire maps and wire values. *)
From Coq Require Import ZArith List Bool Arith Lia Znumtheory Sorted Setoid Morphisms.
From Verif Require Import Base FieldM FieldP ExprM BuilderM Spec.
Import ListNotations.
Open Scope Z_scope.

(** ** Wire order *)

Lemma wire_cmp_eq a b : wire_cmp a b = Eq <-> a = b.
Proof.
  unfold wire_cmp, ONE. destruct (Nat.eqb_spec a 0), (Nat.eqb_spec b 0); simpl; subst;
    try (split; intros; (congruence || lia)).
  apply Nat.compare_eq_iff.
Qed.

Lemma wire_cmp_antisym a b : wire_cmp b a = CompOpp (wire_cmp a b).
Proof.
  unfold wire_cmp, ONE. destruct (Nat.eqb_spec a 0), (Nat.eqb_spec b 0); simpl; subst; try easy.
  apply Nat.compare_antisym.
Qed.

Definition wire_lt (a b : nat) : Prop := wire_cmp a b = Lt.

Lemma wire_lt_char a b : wire_lt a b <-> (a <> 0 /\ (b = 0 \/ (a < b)))%nat.
Proof.
  unfold wire_lt, wire_cmp, ONE.
  destruct (Nat.eqb_spec a 0), (Nat.eqb_spec b 0); simpl; subst; try (split; intro H; try easy; lia).
  rewrite Nat.compare_lt_iff. lia.
Qed.

Lemma wire_lt_trans a b c : wire_lt a b -> wire_lt b c -> wire_lt a c.
Proof. rewrite !wire_lt_char. lia. Qed.

Lemma wire_lt_irrefl a : ~ wire_lt a a.
Proof. rewrite wire_lt_char. lia. Qed.

(** ** Maps *)

Section Maps.
Context {V : Type}.

Lemma m_get_alter_same (u : option V -> V) k m :
  StronglySorted wire_lt (map fst m) ->
  m_get k (m_alter u k m) = Some (u (m_get k m)).
Proof.
  induction m as [|[k' v] m IH]; intro S; simpl.
  - rewrite Nat.eqb_refl. reflexivity.
  - inversion S as [|? ? S' Hf]; subst.
    destruct (wire_cmp k k') eqn:E; simpl.
    + apply wire_cmp_eq in E. subst. rewrite Nat.eqb_refl. reflexivity.
    + rewrite Nat.eqb_refl. destruct (Nat.eqb_spec k k').
      * subst. exfalso. apply (wire_lt_irrefl k'). exact E.
      * assert (N : m_get k m = None).
        { assert (G : forall q : wmap V, Forall (wire_lt k') (map fst q) -> m_get k q = None).
          { induction q as [|[a b] q IHm]; intro Hm; simpl; auto.
            inversion Hm; subst. destruct (Nat.eqb_spec k a).
            - subst. exfalso. apply (wire_lt_irrefl a). eapply wire_lt_trans; [exact E|assumption].
            - auto. }
          apply G. exact Hf. }
        rewrite N. reflexivity.
    + destruct (Nat.eqb_spec k k').
      * subst. assert (wire_cmp k' k' = Eq) by (apply wire_cmp_eq; auto). congruence.
      * apply IH. assumption.
Qed.

Lemma m_get_alter_other (u : option V -> V) k k' m :
  k' <> k -> m_get k' (m_alter u k m) = m_get k' m.
Proof.
  intro N. induction m as [|[a v] m IH]; simpl.
  - destruct (Nat.eqb_spec k' k); congruence.
  - destruct (wire_cmp k a) eqn:E; simpl.
    + apply wire_cmp_eq in E. subst. destruct (Nat.eqb_spec k' a); congruence.
    + destruct (Nat.eqb_spec k' k); congruence.
    + rewrite IH. reflexivity.
Qed.

Lemma m_alter_keys (u : option V -> V) k m x :
  In x (map fst (m_alter u k m)) <-> x = k \/ In x (map fst m).
Proof.
  induction m as [|[a v] m IH]; simpl.
  - intuition.
  - destruct (wire_cmp k a) eqn:E; simpl.
    + apply wire_cmp_eq in E. subst. intuition.
    + intuition.
    + rewrite IH. intuition.
Qed.

Lemma m_alter_sorted (u : option V -> V) k m :
  StronglySorted wire_lt (map fst m) -> StronglySorted wire_lt (map fst (m_alter u k m)).
Proof.
  induction m as [|[a v] m IH]; intro S; simpl.
  - repeat constructor.
  - inversion S as [|? ? S' Hf]; subst. destruct (wire_cmp k a) eqn:E; simpl.
    + constructor; auto.
    + constructor; auto. constructor; auto.
      rewrite Forall_forall in *. intros x Hx. eapply wire_lt_trans; [exact E|]. apply Hf; auto.
    + constructor; auto. rewrite Forall_forall in *. intros x Hx.
      apply m_alter_keys in Hx. destruct Hx as [->|Hx]; auto.
      unfold wire_lt. rewrite wire_cmp_antisym, E. reflexivity.
Qed.

Lemma m_get_In k (m : wmap V) v : m_get k m = Some v -> In (k, v) m.
Proof.
  induction m as [|[a b] m IH]; simpl; [discriminate|].
  destruct (Nat.eqb_spec k a); intro H.
  - inversion H; subst. left. reflexivity.
  - right. auto.
Qed.

Lemma m_get_None k (m : wmap V) : m_get k m = None <-> ~ In k (map fst m).
Proof.
  induction m as [|[a b] m IH]; simpl; [intuition|].
  destruct (Nat.eqb_spec k a); subst; [intuition congruence|].
  rewrite IH. intuition.
Qed.

Lemma m_mem_keys k (m : wmap V) : m_mem k m = true <-> In k (map fst m).
Proof.
  unfold m_mem. destruct (m_get k m) eqn:E.
  - split; auto. intros _. apply m_get_In in E. apply in_map_iff. exists (k, v). auto.
  - apply m_get_None in E. split; [discriminate|contradiction].
Qed.

Lemma m_get_sorted_In k v (m : wmap V) :
  StronglySorted wire_lt (map fst m) -> In (k, v) m -> m_get k m = Some v.
Proof.
  induction m as [|[a b] m IH]; intros S I; simpl; [contradiction|].
  inversion S as [|? ? S' Hf]; subst. destruct I as [I|I].
  - inversion I; subst. rewrite Nat.eqb_refl. reflexivity.
  - destruct (Nat.eqb_spec k a).
    + subst. exfalso. rewrite Forall_forall in Hf. apply (wire_lt_irrefl a). apply Hf.
      apply in_map_iff. exists (a, v). auto.
    + auto.
Qed.

End Maps.

(** A set keeps all other entries and needs no sortedness to make the new entry visible when the
    wire was absent. *)
Lemma m_get_insert_fresh {V} k (x : V) m : m_get k m = None -> m_get k (m_insert k x m) = Some x.
Proof.
  unfold m_insert. induction m as [|[a v] m IH]; simpl; intro H.
  - rewrite Nat.eqb_refl. reflexivity.
  - destruct (Nat.eqb_spec k a); [discriminate|].
    destruct (wire_cmp k a) eqn:E; simpl.
    + apply wire_cmp_eq in E. contradiction.
    + rewrite Nat.eqb_refl. reflexivity.
    + destruct (Nat.eqb_spec k a); [contradiction|]. auto.
Qed.

Lemma v_set_ok k x v v' : v_set k x v = Ok v' ->
  m_get k v = None /\ forall j, m_get j v' = if (j =? k)%nat then Some x else m_get j v.
Proof.
  unfold v_set. destruct (m_get k v) eqn:E; [discriminate|]. intro H. inversion H; subst.
  split; auto. intro j. destruct (Nat.eqb_spec j k).
  - subst. apply m_get_insert_fresh. exact E.
  - apply m_get_alter_other. assumption.
Qed.

Lemma v_set_fresh k x v : m_get k v = None -> exists v', v_set k x v = Ok v' /\
  forall j, m_get j v' = if (j =? k)%nat then Some x else m_get j v.
Proof.
  intro E. assert (H : v_set k x v = Ok (m_insert k x v)) by (unfold v_set; rewrite E; reflexivity).
  exists (m_insert k x v). split; auto. apply (v_set_ok _ _ _ _ H).
Qed.

(** ** Evaluation *)

Section Eval.
Context {F : Field} (Hord : 2 <= order).
Local Infix "==" := feqm (at level 70).

Lemma ev_infield w e : infield (ev w e).
Proof using Hord. apply infield_mod, Hord. Qed.

Lemma ev_eqm w e : ev w e == lin w e.
Proof using Hord. apply feqm_mod, Hord. Qed.

Lemma lin_app w a b : lin w (a ++ b) = lin w a + lin w b.
Proof. induction a as [|x a IH]; simpl; [reflexivity|]. rewrite IH. ring. Qed.

Lemma e_evaluate_gen v w e s :
  agrees v w -> (forall k, In k (e_deps e) -> m_get k v <> None) ->
  exists r, ofold (fun s kc => let! x := v_get v (fst kc) in Ok (fadd s (fmul x (snd kc)))) e s = Ok r
            /\ r == s + lin w e /\ (infield s -> infield r).
Proof using Hord.
  intros A. revert s. induction e as [|[k c] e IH]; intros s Hd; simpl.
  - exists s. split; auto. split; [rewrite Z.add_0_r; reflexivity|auto].
  - unfold v_get. destruct (m_get k v) as [x|] eqn:E.
    + simpl. apply A in E. subst x.
      destruct (IH (fadd s (fmul (w k) c))) as (r & H1 & H2 & H3).
      { intros k' Hk'. apply Hd. right. exact Hk'. }
      exists r. split; [exact H1|]. split.
      * rewrite H2. pose proof (Zadd_feqm Hord). rewrite fadd_eqm, fmul_eqm by apply Hord.
        rewrite Z.add_assoc. reflexivity.
      * intros _. apply H3. apply infield_add, Hord.
    + exfalso. apply (Hd k); auto. left. reflexivity.
Qed.

(** [Expression::evaluate] computes [ev]. *)
Lemma e_evaluate_ok v w e :
  agrees v w -> (forall k, In k (e_deps e) -> m_get k v <> None) ->
  e_evaluate v e = Ok (ev w e).
Proof using Hord.
  intros A Hd. destruct (e_evaluate_gen v w e fzero A Hd) as (r & H1 & H2 & H3).
  unfold e_evaluate. rewrite H1. f_equal. apply feqm_eq.
  - apply H3. apply infield_0, Hord.
  - apply ev_infield.
  - rewrite H2, ev_eqm. reflexivity.
Qed.

Lemma lin_alter_add w k c m : lin w (m_add k c m) == lin w m + w k * c.
Proof using Hord.
  pose proof (Zadd_feqm Hord) as PA. pose proof (Zmul_feqm Hord) as PM.
  unfold m_add. induction m as [|[a v] m IH]; simpl.
  - rewrite fadd_eqm by apply Hord. unfold fzero. rewrite Z.add_0_l, Z.add_0_r. reflexivity.
  - destruct (wire_cmp k a) eqn:E; simpl.
    + apply wire_cmp_eq in E. subst. rewrite fadd_eqm by apply Hord.
      replace (w a * v + lin w m + w a * c) with (w a * (v + c) + lin w m) by ring. reflexivity.
    + rewrite fadd_eqm by apply Hord. unfold fzero. rewrite Z.add_0_l.
      replace (w a * v + lin w m + w k * c) with (w k * c + (w a * v + lin w m)) by ring.
      reflexivity.
    + fold (lin w (m_alter (fun o : option Z =>
         fadd match o with Some v0 => v0 | None => fzero end c) k m)).
      rewrite IH. rewrite Z.add_assoc. reflexivity.
Qed.

Lemma lin_fold_add w b a :
  lin w (fold_left (fun m kc => m_add (fst kc) (snd kc) m) b a) == lin w a + lin w b.
Proof using Hord.
  pose proof (Zadd_feqm Hord) as PA.
  revert a. induction b as [|[k c] b IH]; intro a; simpl.
  - rewrite Z.add_0_r. reflexivity.
  - rewrite IH. rewrite lin_alter_add.
    replace (lin w a + w k * c + lin w b) with (lin w a + (w k * c + lin w b)) by ring. reflexivity.
Qed.

Lemma lin_new w m : lin w (e_new m) = lin w m.
Proof.
  unfold e_new. induction m as [|[k c] m IH]; simpl; auto.
  destruct (Z.eqb_spec c 0); simpl; rewrite IH; subst; ring.
Qed.

Lemma ev_of_eqm w a x : lin w a == x -> ev w a = x mod order.
Proof. unfold ev, feqm. auto. Qed.

Lemma ev_add w a b : ev w (e_add a b) = fadd (ev w a) (ev w b).
Proof using Hord.
  pose proof (Zadd_feqm Hord) as PA.
  apply feqm_eq; [apply ev_infield|apply infield_add, Hord|].
  rewrite fadd_eqm, !ev_eqm by apply Hord. unfold e_add. rewrite lin_new, lin_fold_add. reflexivity.
Qed.

Lemma lin_scale_map w e c :
  lin w (map (fun kv => (fst kv, fmul (snd kv) c)) e) == lin w e * c.
Proof using Hord.
  pose proof (Zadd_feqm Hord) as PA. pose proof (Zmul_feqm Hord) as PM.
  induction e as [|[k d] e IH]; simpl.
  - reflexivity.
  - fold (lin w e). rewrite IH. rewrite fmul_eqm by apply Hord.
    replace ((w k * d + lin w e) * c) with (w k * (d * c) + lin w e * c) by ring. reflexivity.
Qed.

Lemma ev_scale w e c : ev w (e_scale e c) = fmul (ev w e) c.
Proof using Hord.
  pose proof (Zmul_feqm Hord) as PM.
  apply feqm_eq; [apply ev_infield|apply infield_mul, Hord|].
  rewrite fmul_eqm, !ev_eqm by apply Hord. unfold e_scale. rewrite lin_new, lin_scale_map. reflexivity.
Qed.

Lemma ev_neg w e : ev w (e_neg e) = fopp (ev w e).
Proof using Hord.
  pose proof (Zmul_feqm Hord) as PM.
  apply feqm_eq; [apply ev_infield|apply infield_opp; [apply Hord|apply ev_infield]|].
  unfold e_neg. rewrite ev_scale, fmul_eqm, !fopp_eqm by apply Hord.
  unfold fone. replace (- ev w e) with (ev w e * -1) by ring. reflexivity.
Qed.

Lemma ev_sub w a b : ev w (e_sub a b) = fsub (ev w a) (ev w b).
Proof using Hord. unfold e_sub, fsub. rewrite ev_add, ev_neg. reflexivity. Qed.

Lemma ev_zero w : ev w e_zero = 0.
Proof using Hord. unfold ev. simpl. apply Z.mod_0_l. lia. Qed.

Lemma ev_wire w k : infield (w k) -> ev w (e_wire k) = w k.
Proof using Hord.
  intro H. unfold e_wire, m_collect, ev. rewrite lin_new. simpl. unfold fone.
  rewrite Z.add_0_r, Z.mul_1_r. apply Z.mod_small. exact H.
Qed.

Lemma ev_const w c : w ONE = 1 -> infield c -> ev w (e_const c) = c.
Proof using Hord.
  intros H1 H. unfold e_const, m_collect, ev. rewrite lin_new. simpl. rewrite H1.
  rewrite Z.add_0_r, Z.mul_1_l. apply Z.mod_small. exact H.
Qed.

Lemma ev_one w : w ONE = 1 -> ev w e_one = 1.
Proof using Hord. intro. apply ev_const; auto. apply infield_1, Hord. Qed.

Lemma ev_bool w b : w ONE = 1 -> ev w (e_bool b) = b2z b.
Proof using Hord.
  intro. unfold e_bool. apply ev_const; auto. apply infield_bool, Hord.
Qed.

Lemma lin_sum_fold w es m :
  lin w (fold_left (fun m e => fold_left (fun m' kc => m_add (fst kc) (snd kc) m') e m) es m)
  == lin w m + fold_right (fun e s => lin w e + s) 0 es.
Proof using Hord.
  pose proof (Zadd_feqm Hord) as PA.
  revert m. induction es as [|e es IH]; intro m; simpl.
  - rewrite Z.add_0_r. reflexivity.
  - rewrite IH, lin_fold_add. rewrite Z.add_assoc. reflexivity.
Qed.

Lemma ev_sum w es : ev w (e_sum es) = (fold_right (fun e s => ev w e + s) 0 es) mod order.
Proof using Hord.
  pose proof (Zadd_feqm Hord) as PA.
  apply ev_of_eqm. unfold e_sum. rewrite lin_new, lin_sum_fold. simpl.
  induction es as [|e es IH]; simpl; [reflexivity|].
  rewrite IH. rewrite ev_eqm. reflexivity.
Qed.

Lemma e_scale_u128_spec e n : infield n -> e_scale_u128 e n = Ok (e_scale e n).
Proof using Hord.
  intro H. unfold e_scale_u128, e_scale.
  assert (E : omap (fun kv => let! c := fmul_u128 (snd kv) n in Ok (fst kv, c)) e
              = Ok (map (fun kv => (fst kv, fmul (snd kv) n)) e)).
  { induction e as [|kv e IH]; simpl; auto. unfold fmul_u128 at 1. rewrite el_from_ok by exact H.
    simpl. simpl in IH. rewrite IH. reflexivity. }
  rewrite E. reflexivity.
Qed.

Lemma as_constant_spec e c : e_as_constant e = Some c -> e = [(ONE, c)].
Proof.
  unfold e_as_constant, e_num_terms. destruct e as [|[k v] [|kv e]]; simpl; try discriminate.
  unfold ONE. destruct k; simpl; [|discriminate]. intro H. inversion H. reflexivity.
Qed.

Lemma ev_as_constant w e c : w ONE = 1 -> e_as_constant e = Some c -> ev w e == c.
Proof using Hord.
  intros H1 H. apply as_constant_spec in H. subst. rewrite ev_eqm. simpl. rewrite H1.
  rewrite Z.add_0_r, Z.mul_1_l. reflexivity.
Qed.

(** sum_of_wires *)
Lemma m_collect_lin w l :
  NoDup (map fst l) -> forall m, (forall k, In k (map fst l) -> ~ In k (map fst m)) ->
  lin w (fold_left (fun m kv => m_insert (fst kv) (snd kv) m) l m) = lin w m + lin w l.
Proof.
  induction l as [|[k c] l IH]; intros ND m Hd; simpl.
  - ring.
  - inversion ND; subst. rewrite IH; auto.
    + assert (G : forall m, ~ In k (map fst m) -> lin w (m_insert k c m) = lin w m + w k * c).
      { clear. induction m as [|[a v] m IHm]; intro Hn; simpl; [ring|].
        unfold m_insert in *. simpl. destruct (wire_cmp k a) eqn:E; simpl.
        - apply wire_cmp_eq in E. subst. exfalso. apply Hn. left. reflexivity.
        - fold (lin w m). ring.
        - fold (lin w (m_alter (fun _ : option Z => c) k m)). rewrite IHm; [fold (lin w m); ring|].
          intro. apply Hn. right. assumption. }
      rewrite G; [simpl; fold (lin w l); ring|]. apply Hd. left. reflexivity.
    + intros j Hj. unfold m_insert. rewrite m_alter_keys. intros [->|Hm].
      * contradiction.
      * apply (Hd j); auto. right. assumption.
Qed.

Lemma ev_sum_of_wires w ws : NoDup ws ->
  ev w (e_sum_of_wires ws) = (fold_right (fun k s => w k + s) 0 ws) mod order.
Proof.
  intro ND. unfold ev, e_sum_of_wires, m_collect. rewrite m_collect_lin.
  - f_equal. clear ND. induction ws as [|k ws IH]; simpl; auto. simpl in IH. rewrite IH. unfold fone. ring.
  - rewrite map_map. simpl. rewrite map_id. exact ND.
  - intros k _ [].
Qed.

(** dependencies of the results *)
Lemma deps_new m k : In k (e_deps (e_new m)) -> In k (map fst m).
Proof.
  unfold e_deps, e_new. rewrite !in_map_iff. intros [x [E I]]. apply filter_In in I.
  exists x. tauto.
Qed.

Lemma deps_fold_add b a k :
  In k (map fst (fold_left (fun m kc => m_add (fst kc) (snd kc) m) b a)) <->
  In k (map fst a) \/ In k (map fst b).
Proof.
  revert a. induction b as [|[j c] b IH]; intro a; simpl; [intuition|].
  rewrite IH. unfold m_add. rewrite m_alter_keys. intuition.
Qed.

Lemma over_add P a b : over P a -> over P b -> over P (e_add a b).
Proof.
  unfold over. intros Ha Hb k Hk. apply deps_new in Hk. apply deps_fold_add in Hk.
  destruct Hk; auto.
Qed.
Lemma over_scale P a c : over P a -> over P (e_scale a c).
Proof.
  unfold over. intros Ha k Hk. apply deps_new in Hk. rewrite map_map in Hk. simpl in Hk. auto.
Qed.
Lemma over_neg P a : over P a -> over P (e_neg a).
Proof. apply over_scale. Qed.
Lemma over_sub P a b : over P a -> over P b -> over P (e_sub a b).
Proof. intros. apply over_add; auto. apply over_neg; auto. Qed.
Lemma over_zero P : over P e_zero.
Proof. intros k []. Qed.
Lemma over_wire (P : nat -> Prop) k : P k -> over P (e_wire k).
Proof. intros H j Hj. apply deps_new in Hj. simpl in Hj. destruct Hj as [<-|[]]. exact H. Qed.
Lemma over_const (P : nat -> Prop) c : P ONE -> over P (e_const c).
Proof. intros H j Hj. apply deps_new in Hj. simpl in Hj. destruct Hj as [<-|[]]. exact H. Qed.
Lemma over_one (P : nat -> Prop) : P ONE -> over P e_one.
Proof. apply over_const. Qed.
Lemma over_bool (P : nat -> Prop) b : P ONE -> over P (e_bool b).
Proof. apply over_const. Qed.
Lemma over_impl (P Q : nat -> Prop) e : (forall k, P k -> Q k) -> over P e -> over Q e.
Proof. unfold over. auto. Qed.

Lemma over_sum P es : Forall (over P) es -> over P (e_sum es).
Proof.
  intros H k Hk. apply deps_new in Hk.
  assert (G : forall es m, Forall (over P) es ->
     In k (map fst (fold_left (fun m e => fold_left (fun m' kc => m_add (fst kc) (snd kc) m') e m) es m)) ->
     In k (map fst m) \/ P k).
  { clear. induction es as [|e es IH]; intros m Hf Hk; simpl in *; auto.
    inversion Hf; subst. apply IH in Hk; auto. destruct Hk as [Hk|Hk]; auto.
    apply deps_fold_add in Hk. destruct Hk as [Hk|Hk]; auto. }
  destruct (G es [] H Hk) as [[]|]; auto.
Qed.

Lemma over_sum_of_wires (P : nat -> Prop) ws : Forall P ws -> over P (e_sum_of_wires ws).
Proof.
  intros H k Hk. unfold e_deps, e_sum_of_wires, m_collect in Hk.
  assert (G : forall (l : list (nat * Z)) m,
     In k (map fst (fold_left (fun m kv => m_insert (fst kv) (snd kv) m) l m)) ->
     In k (map fst m) \/ In k (map fst l)).
  { clear. induction l as [|[j c] l IH]; intros m Hk; simpl in *; auto.
    apply IH in Hk. destruct Hk as [Hk|Hk]; auto. unfold m_insert in Hk. apply m_alter_keys in Hk.
    intuition. }
  apply G in Hk. destruct Hk as [[]|Hk]. rewrite map_map in Hk. simpl in Hk. rewrite map_id in Hk.
  rewrite Forall_forall in H. auto.
Qed.

(** value only depends on the wires of the expression *)
Lemma ev_ext w w' e : (forall k, In k (e_deps e) -> w k = w' k) -> ev w e = ev w' e.
Proof.
  intro H. unfold ev. f_equal. unfold lin, e_deps in *. induction e as [|[k c] e IH]; simpl in *; auto.
  rewrite IH by auto. rewrite (H k) by auto. reflexivity.
Qed.

End Eval.
