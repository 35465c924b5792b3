(** Lemmas about field elements, expressions and wire values used by the core statements. *)
From Coq Require Import ZArith List Bool Arith Lia Znumtheory Sorting.Sorted Setoid Morphisms.
From Verif Require Import Base FieldM FieldP ExprM BuilderM Spec ExprP BitsP MonoP ExecP.
Import ListNotations.
Open Scope Z_scope.

(** ** gcd *)
Section Gcd.
Context {F : Field}.

Lemma imod_ok x y : 0 <= x < order -> 0 < y -> integer_modulus x y = Ok (x mod y).
Proof.
  intros Hx Hy. unfold integer_modulus. destruct (Z.eqb_spec y 0); [lia|]. apply el_from_ok. unfold infield.
  pose proof (Z.mod_pos_bound x y Hy). pose proof (Z.mod_le x y). lia.
Qed.

Lemma idiv_ok x y : 0 <= x < order -> 0 < y -> integer_division x y = Ok (x / y).
Proof.
  intros Hx Hy. unfold integer_division. destruct (Z.eqb_spec y 0); [lia|]. apply el_from_ok. unfold infield.
  pose proof (Z.div_pos x y). pose proof (Z.div_le_upper_bound x y x). nia.
Qed.

Lemma fgcd_fuel_ok n : forall fuel x y, 0 <= x < order -> 0 <= y < order -> (zbits y <= n)%nat ->
  (2 * n + 2 <= fuel)%nat -> fgcd_fuel fuel x y = Ok (Z.gcd x y).
Proof.
  induction n as [|n IH]; intros fuel x y Hx Hy Hn Hf.
  - assert (y = 0) as -> by (apply zbits_le_iff in Hn; simpl in Hn; lia).
    destruct fuel as [|f]; [lia|]. cbn [fgcd_fuel]. rewrite Z.gcd_0_r. rewrite Z.abs_eq by lia. reflexivity.
  - destruct fuel as [|f]; [lia|]. cbn [fgcd_fuel]. destruct (Z.eqb_spec y 0) as [->|Ny].
    { rewrite Z.gcd_0_r, Z.abs_eq by lia. reflexivity. }
    rewrite imod_ok by lia. cbn [obind]. pose proof (Z.mod_pos_bound x y ltac:(lia)) as Hr. set (r := x mod y) in *.
    assert (Eg : Z.gcd y r = Z.gcd x y) by (unfold r; rewrite (Z.gcd_comm y), Z.gcd_mod by lia; apply Z.gcd_comm).
    rewrite <- Eg. destruct f as [|f]; [lia|]. cbn [fgcd_fuel]. destruct (Z.eqb_spec r 0) as [->|Nr].
    { rewrite Z.gcd_0_r, Z.abs_eq by lia. reflexivity. }
    rewrite imod_ok by lia. cbn [obind]. pose proof (Z.mod_pos_bound y r ltac:(lia)) as Hs. set (s := y mod r) in *.
    assert (Eg2 : Z.gcd r s = Z.gcd y r) by (unfold s; rewrite (Z.gcd_comm r), Z.gcd_mod by lia; apply Z.gcd_comm).
    rewrite <- Eg2. apply IH; try lia.
    apply zbits_le_iff; [lia|]. apply zbits_le_iff in Hn; [|lia]. rewrite pow2_S in Hn.
    assert (2 * s < y); [|lia]. pose proof (Z.div_mod y r ltac:(lia)). assert (1 <= y / r) by (apply Z.div_le_lower_bound; lia).
    fold s in H. nia.
Qed.

Lemma fgcd_ok x y : 0 <= x < order -> 0 <= y < order -> fgcd x y = Ok (Z.gcd x y).
Proof. intros. unfold fgcd. eapply fgcd_fuel_ok; eauto. lia. Qed.

(** ** is_prime *)
Lemma trial_prime x d : 2 <= x -> 2 <= d -> x < d * d -> (forall d', 2 <= d' < d -> x mod d' <> 0) -> prime x.
Proof.
  intros Hx Hd Hs H. apply prime_alt. split; [lia|]. intros n Hn [m Hm].
  assert (1 < m) by nia. 
  destruct (Z.le_gt_cases n m).
  - apply (H n); [nia|]. subst x. apply Z.mod_mul. lia.
  - apply (H m); [nia|]. subst x. rewrite Z.mul_comm. apply Z.mod_mul. lia.
Qed.

Lemma is_prime_loop_ok (H2 : 2 < order) fuel : forall x d, 2 <= x < order -> 2 <= d <= x ->
  (forall d', 2 <= d' < d -> x mod d' <> 0) -> x - d < Z.of_nat fuel ->
  exists b, is_prime_loop fuel x d = Ok b /\
    (b = true <-> prime x /\ exists d', d <= d' <= x /\ x < (d' * d') mod order).
Proof.
  induction fuel as [|f IH]; intros x d Hx Hd Hn Hf; [lia|]. cbn [is_prime_loop]. unfold fmul.
  destruct (Z.leb_spec ((d * d) mod order) x) as [Hq|Hq].
  - rewrite imod_ok by lia. cbn [obind]. destruct (Z.eqb_spec (x mod d) 0) as [Ez|Nz].
    + exists false. split; [reflexivity|]. split; [discriminate|]. intros (Hp & d' & Hd' & Hq'). exfalso.
      apply Z.mod_divide in Ez; [|lia]. apply prime_divisors in Ez; [|exact Hp].
      assert (d = x) by lia. assert (d' = d) by lia. subst d'. lia.
    + assert (d < x) by (assert (d <> x); [|lia]; intros ->; rewrite Z.mod_same in Nz by lia; lia).
      unfold fadd, fone. rewrite Z.mod_small by lia. destruct (IH x (d + 1)) as (b & E & Hb).
      * lia.
      * lia.
      * intros d' Hd'. destruct (Z.eq_dec d' d) as [->|]; [exact Nz|]. apply Hn. lia.
      * lia.
      * exists b. split; [exact E|]. rewrite Hb. split; intros (Hp & d' & Hd' & Hq'); split; auto; exists d'.
        -- split; [lia|exact Hq'].
        -- split; [|exact Hq']. assert (d' <> d) by (intros ->; lia). lia.
  - exists true. split; [reflexivity|]. split; [|reflexivity]. intros _. split.
    + apply (trial_prime x d); auto; try lia. pose proof (Z.mod_le (d * d) order). nia.
    + exists d. split; [lia|exact Hq].
Qed.

End Gcd.

(** ** evaluation against values *)
Section Eval.
Context {F : Field} (Hord : 2 <= order).
Local Infix "==" := feqm (at level 70).

Lemma e_evaluate_deps v e x : e_evaluate v e = Ok x -> forall k, In k (e_deps e) -> m_get k v <> None.
Proof.
  unfold e_evaluate, e_deps. generalize fzero. revert x. induction e as [|[k c] e IH]; intros x z E j Hj; [destruct Hj|].
  simpl in E. unfold v_get, ounwrap in E. destruct (m_get k v) eqn:G; cbn in E; [|discriminate].
  destruct Hj as [<-|Hj]; [cbn; congruence|]. eapply IH; eauto.
Qed.

(** Field values, not merely congruent ones. *)
Definition raw_witness (v : values) : witness := fun k => match m_get k v with Some x => x | None => 0 end.

Lemma raw_agrees v : agrees v (raw_witness v).
Proof. intros k x H. unfold raw_witness. rewrite H. reflexivity. Qed.

Lemma e_evaluate_raw v e : (forall k, In k (e_deps e) -> m_get k v <> None) -> e_evaluate v e = Ok (ev (raw_witness v) e).
Proof using Hord. apply (e_evaluate_ok Hord), raw_agrees. Qed.

Lemma e_evaluate_raw_inv v e x : e_evaluate v e = Ok x -> x = ev (raw_witness v) e.
Proof using Hord. intro E. rewrite e_evaluate_raw in E by (eapply e_evaluate_deps; eauto). congruence. Qed.

(** Operations whose result only mentions wires of the operands. *)
Lemma evaluate_binop v a b x y r z : e_evaluate v a = Ok x -> e_evaluate v b = Ok y ->
  (forall k, In k (e_deps r) -> In k (e_deps a) \/ In k (e_deps b)) ->
  (ev (raw_witness v) r = z (ev (raw_witness v) a) (ev (raw_witness v) b)) -> e_evaluate v r = Ok (z x y).
Proof using Hord.
  intros Ea Eb D H. rewrite e_evaluate_raw.
  - rewrite H, <- (e_evaluate_raw_inv _ _ _ Ea), <- (e_evaluate_raw_inv _ _ _ Eb). reflexivity.
  - intros k Hk. destruct (D k Hk); [eapply (e_evaluate_deps v a); eauto|eapply (e_evaluate_deps v b); eauto].
Qed.

Lemma deps_add a b k : In k (e_deps (e_add a b)) -> In k (e_deps a) \/ In k (e_deps b).
Proof. intro H. apply deps_new in H. apply deps_fold_add in H. exact H. Qed.
Lemma deps_scale a c k : In k (e_deps (e_scale a c)) -> In k (e_deps a).
Proof. intro H. apply deps_new in H. rewrite map_map in H. exact H. Qed.

Lemma e_div_ok (Hp : prime order) e c : 2 < order -> infield c -> c <> 0 -> e_div e c = Ok (e_scale e (finvv c)).
Proof.
  intros H2 Hc Hn. unfold e_div, e_scale.
  assert (E : omap (fun kv => let! q := fdiv (snd kv) c in Ok (fst kv, q)) e = Ok (map (fun kv => (fst kv, fmul (snd kv) (finvv c))) e)).
  { induction e as [|[k x] e IH]; [reflexivity|]. cbn [omap map]. unfold fdiv. rewrite (finv_spec Hp c H2 Hc Hn). cbn [obind fst snd].
    unfold fdiv in IH. rewrite (finv_spec Hp c H2 Hc Hn) in IH. cbn [obind] in IH. rewrite IH. reflexivity. }
  rewrite E. reflexivity.
Qed.

(** ** canonical expressions *)
Definition canon (e : expr) : Prop :=
  StronglySorted wire_lt (map fst e) /\ Forall (fun kc => infield (snd kc) /\ snd kc <> 0) e.

Definition sorted_map (m : expr) : Prop := StronglySorted wire_lt (map fst m) /\ Forall (fun kc => infield (snd kc)) m.

Lemma filter_sorted (f : nat * Z -> bool) m : StronglySorted wire_lt (map fst m) -> StronglySorted wire_lt (map fst (filter f m)).
Proof.
  induction m as [|a m IH]; intro H; simpl; [constructor|]. inversion H as [|x l S A]; subst. destruct (f a); simpl; auto.
  constructor; auto. rewrite Forall_forall in *. intros k Hk. apply A. rewrite in_map_iff in *. destruct Hk as (y & Ey & Iy).
  apply filter_In in Iy. exists y. tauto.
Qed.

Lemma canon_new m : sorted_map m -> canon (e_new m).
Proof.
  intros [S V]. split; [apply filter_sorted, S|]. unfold e_new. rewrite Forall_forall in *. intros x Hx.
  apply filter_In in Hx. destruct Hx as [Ix Nx]. split; [apply V, Ix|]. destruct (Z.eqb_spec (snd x) 0); [discriminate|assumption].
Qed.

Lemma canon_sorted e : canon e -> sorted_map e.
Proof. intros [S V]. split; [exact S|]. eapply Forall_impl; [|exact V]. cbv beta. tauto. Qed.

Lemma m_alter_values (u : option Z -> Z) k m : (forall o, infield (u o)) -> Forall (fun kc => infield (snd kc)) m ->
  Forall (fun kc : nat * Z => infield (snd kc)) (m_alter u k m).
Proof.
  intros Hu. induction m as [|[a v] m IH]; intro V; simpl; [repeat constructor; apply Hu|].
  inversion V as [|? ? A B]; subst. destruct (wire_cmp k a); constructor; cbn [snd]; auto.
Qed.

Lemma sorted_m_add k c m : sorted_map m -> sorted_map (m_add k c m).
Proof using Hord.
  intros [S V]. split; [apply m_alter_sorted, S|]. apply m_alter_values; [|exact V]. intro o. apply infield_add, Hord.
Qed.

Lemma sorted_fold_add b : forall a, sorted_map a -> sorted_map (fold_left (fun m kc => m_add (fst kc) (snd kc) m) b a).
Proof using Hord. induction b as [|x b IH]; intros a H; simpl; auto. apply IH, sorted_m_add, H. Qed.

Lemma canon_add a b : canon a -> canon (e_add a b).
Proof using Hord. intro H. apply canon_new, sorted_fold_add, canon_sorted, H. Qed.

Lemma sorted_nil : sorted_map [].
Proof. split; constructor. Qed.

Lemma canon_sum es : canon (e_sum es).
Proof using Hord.
  apply canon_new. generalize sorted_nil. generalize (@nil (nat * Z)). induction es as [|e es IH]; intros m H; simpl; auto.
  apply IH, sorted_fold_add, H.
Qed.

Lemma sorted_map_values (f : Z -> Z) e : (forall x, infield (f x)) -> sorted_map e -> sorted_map (map (fun kv => (fst kv, f (snd kv))) e).
Proof.
  intros Hf [S V]. split; [rewrite map_map; exact S|]. apply Forall_map, Forall_forall. intros x _. apply Hf.
Qed.

Lemma canon_scale e c : canon e -> canon (e_scale e c).
Proof using Hord. intro H. apply canon_new, (sorted_map_values (fun x => fmul x c)); [intro; apply infield_mul, Hord|apply canon_sorted, H]. Qed.

Lemma sorted_collect l : Forall (fun kc => infield (snd kc)) l -> sorted_map (m_collect l).
Proof.
  unfold m_collect. generalize sorted_nil. generalize (@nil (nat * Z)). induction l as [|[k x] l IH]; intros m S V; simpl; auto.
  inversion V; subst. apply IH; auto. destruct S as [S1 S2]. split; [apply m_alter_sorted, S1|apply m_alter_values; auto].
Qed.

Lemma canon_wire k : canon (e_wire k).
Proof using Hord. apply canon_new, sorted_collect. repeat constructor; cbn; unfold fone; lia. Qed.
Lemma canon_const c : infield c -> canon (e_const c).
Proof. intro H. apply canon_new, sorted_collect. repeat constructor; apply H. Qed.
Lemma canon_zero : canon e_zero.
Proof. split; constructor. Qed.

Lemma canon_sum_of_wires ws : canon (e_sum_of_wires ws).
Proof using Hord.
  unfold e_sum_of_wires, m_collect.
  assert (G : forall l m, canon m -> Forall (fun kc : nat * Z => snd kc = 1) l ->
    canon (fold_left (fun m kv => m_insert (fst kv) (snd kv) m) l m)).
  { induction l as [|[k x] l IH]; intros m H V; simpl; auto. inversion V as [|? ? E1 V']; subst. cbn in E1. subst x. apply IH; auto.
    destruct H as [S V2]. split; [apply m_alter_sorted, S|]. clear - V2 Hord.
    assert (O : infield 1 /\ 1 <> 0) by (unfold infield; lia).
    unfold m_insert. induction m as [|[a v] m IH]; simpl; [repeat constructor; apply O|]. inversion V2 as [|? ? A B]; subst.
    destruct (wire_cmp k a); constructor; auto. }
  apply G; [apply canon_zero|]. apply Forall_map, Forall_forall. intros; reflexivity.
Qed.

(** Coefficient of a wire. *)
Definition coef (k : nat) (e : expr) : Z := match m_get k e with Some c => c | None => 0 end.

Lemma sorted_nodup (m : expr) : StronglySorted wire_lt (map fst m) -> NoDup (map fst m).
Proof.
  induction (map fst m) as [|k l IH]; intro H; [constructor|]. inversion H as [|? ? S A]; subst. constructor; auto.
  intro I. rewrite Forall_forall in A. exact (wire_lt_irrefl _ (A _ I)).
Qed.

Lemma lin_update w k a e : NoDup (map fst e) ->
  lin (fun j => if (j =? k)%nat then a else w j) e = lin w e + coef k e * (a - w k).
Proof.
  unfold coef, lin. induction e as [|[j c] e IH]; intro ND; [simpl; ring|]. inversion ND as [|? ? N D]; subst.
  cbn [fold_right fst snd m_get]. rewrite IH by exact D. rewrite (Nat.eqb_sym k j). destruct (Nat.eqb_spec j k) as [->|].
  - assert (E : m_get k e = None) by (apply m_get_None, N). rewrite E. ring.
  - ring.
Qed.

Definition w_zero : witness := fun _ => 0.
Definition w_one : witness := fun j => if (j =? ONE)%nat then 1 else 0.
Definition w_at (k : nat) : witness := fun j => if (j =? k)%nat then 1 else w_one j.

Lemma lin_zero e : lin w_zero e = 0.
Proof. unfold lin, w_zero. induction e as [|[k c] e IH]; cbn [fold_right fst snd]; [reflexivity|]. rewrite IH. ring. Qed.
Lemma w_one_wf : wf_witness w_one.
Proof using Hord. split; [reflexivity|]. intro k. unfold w_one. destruct (k =? ONE)%nat; lia. Qed.
Lemma w_at_wf k : wf_witness (w_at k).
Proof using Hord. split; [unfold w_at; destruct (ONE =? k)%nat; reflexivity|]. intro j. unfold w_at. destruct (j =? k)%nat; [lia|apply w_one_wf]. Qed.

Lemma lin_one e : NoDup (map fst e) -> lin w_one e = coef ONE e.
Proof.
  intro ND. change w_one with (fun j => if (j =? ONE)%nat then 1 else w_zero j). rewrite lin_update by exact ND.
  rewrite lin_zero. unfold w_zero. ring.
Qed.
Lemma lin_at k e : NoDup (map fst e) -> k <> ONE -> lin (w_at k) e = coef ONE e + coef k e.
Proof.
  intros ND N. unfold w_at. rewrite lin_update by exact ND. rewrite lin_one by exact ND.
  unfold w_one. destruct (Nat.eqb_spec k ONE); [contradiction|]. ring.
Qed.

Lemma canon_coef e k : canon e -> infield (coef k e) /\ (coef k e <> 0 <-> In k (e_deps e)).
Proof using Hord.
  intros [S V]. unfold coef, e_deps. destruct (m_get k e) as [c|] eqn:E.
  - apply m_get_In in E. rewrite Forall_forall in V. specialize (V _ E). split; [apply V|]. split; [|intros _; apply V].
    intros _. apply in_map_iff. exists (k, c). auto.
  - split; [unfold infield; lia|]. apply m_get_None in E. tauto.
Qed.

Lemma sorted_ext (a b : expr) : StronglySorted wire_lt (map fst a) -> StronglySorted wire_lt (map fst b) ->
  (forall k, m_get k a = m_get k b) -> a = b.
Proof.
  revert b. induction a as [|[k c] a IH]; intros [|[k' c'] b] Sa Sb E; auto.
  - specialize (E k'). simpl in E. rewrite Nat.eqb_refl in E. discriminate.
  - specialize (E k). simpl in E. rewrite Nat.eqb_refl in E. discriminate.
  - assert (Hk : k = k').
    { inversion Sa as [|? ? _ A]; inversion Sb as [|? ? _ B]; subst. rewrite Forall_forall in A, B.
      pose proof (E k) as E1. pose proof (E k') as E2. simpl in E1, E2. rewrite Nat.eqb_refl in E1, E2.
      destruct (Nat.eqb_spec k k') as [|N]; [assumption|]. destruct (Nat.eqb_spec k' k) as [|N2]; [auto|].
      symmetry in E1. apply m_get_In in E1. apply m_get_In in E2.
      assert (L1 : wire_lt k' k) by (apply B, in_map_iff; exists (k, c); auto).
      assert (L2 : wire_lt k k') by (apply A, in_map_iff; exists (k', c'); auto).
      destruct (wire_lt_irrefl _ (wire_lt_trans _ _ _ L1 L2)). }
    subst k'. inversion Sa as [|? ? Sa' A]; inversion Sb as [|? ? Sb' B]; subst.
    pose proof (E k) as E1. simpl in E1. rewrite Nat.eqb_refl in E1. injection E1 as <-. f_equal. apply IH; auto.
    intro j. destruct (Nat.eq_dec j k) as [->|N].
    + assert (NA : m_get k a = None) by (apply m_get_None; intro I; rewrite Forall_forall in A; exact (wire_lt_irrefl _ (A _ I))).
      assert (NB : m_get k b = None) by (apply m_get_None; intro I; rewrite Forall_forall in B; exact (wire_lt_irrefl _ (B _ I))).
      congruence.
    + specialize (E j). simpl in E. destruct (Nat.eqb_spec j k); [contradiction|exact E].
Qed.

Lemma canon_eq a b : canon a -> canon b -> (forall w, wf_witness w -> ev w a = ev w b) -> a = b.
Proof using Hord.
  intros Ca Cb H. pose proof (sorted_nodup _ (proj1 Ca)) as Na. pose proof (sorted_nodup _ (proj1 Cb)) as Nb.
  assert (E0 : coef ONE a = coef ONE b).
  { pose proof (H w_one w_one_wf) as E. unfold ev in E. rewrite !lin_one in E by assumption.
    rewrite !Z.mod_small in E; [exact E|apply (canon_coef b), Cb|apply (canon_coef a), Ca]. }
  assert (Ek : forall k, coef k a = coef k b).
  { intro k. destruct (Nat.eq_dec k ONE) as [->|N]; [exact E0|]. pose proof (H (w_at k) (w_at_wf k)) as E. unfold ev in E.
    rewrite !lin_at, E0 in E by assumption.
    assert (Q : coef k a == coef k b).
    { unfold feqm. replace (coef k a) with ((coef ONE b + coef k a) - coef ONE b) by ring.
      replace (coef k b) with ((coef ONE b + coef k b) - coef ONE b) by ring. rewrite Zminus_mod, E, <- Zminus_mod. reflexivity. }
    apply feqm_eq in Q; [exact Q|apply (canon_coef a), Ca|apply (canon_coef b), Cb]. }
  apply sorted_ext; [apply Ca|apply Cb|]. intro k. specialize (Ek k).
  destruct (canon_coef a k Ca) as [_ Da]. destruct (canon_coef b k Cb) as [_ Db]. unfold coef in *.
  destruct (m_get k a) as [x|] eqn:Ga, (m_get k b) as [y|] eqn:Gb; auto; try congruence.
  - exfalso. apply Da; [|exact Ek]. apply m_get_In in Ga. apply in_map_iff. exists (k, x). auto.
  - exfalso. apply Db; [|symmetry; exact Ek]. apply m_get_In in Gb. apply in_map_iff. exists (k, y). auto.
Qed.

Lemma canon_dep e k : canon e -> k <> ONE ->
  (In k (e_deps e) <-> exists w w', wf_witness w /\ wf_witness w' /\ (forall j, j <> k -> w j = w' j) /\ ev w e <> ev w' e).
Proof using Hord.
  intros C N. split.
  - intro I. exists w_one, (w_at k). split; [apply w_one_wf|]. split; [apply w_at_wf|]. split.
    + intros j Hj. unfold w_at. destruct (Nat.eqb_spec j k); [contradiction|reflexivity].
    + pose proof (sorted_nodup _ (proj1 C)) as ND. destruct (canon_coef e k C) as [Hi Hd]. apply Hd in I.
      unfold ev. rewrite lin_one, lin_at by assumption. intro E.
      assert (Q : coef k e == 0).
      { unfold feqm. replace (coef k e) with ((coef ONE e + coef k e) - coef ONE e) by ring.
        rewrite Zminus_mod, <- E, <- Zminus_mod, Z.sub_diag. reflexivity. }
      apply I. apply feqm_eq in Q; [exact Q|exact Hi|unfold infield; lia].
  - intros (w & w' & _ & _ & Hj & Hne). destruct (in_dec Nat.eq_dec k (e_deps e)) as [I|I]; [exact I|].
    exfalso. apply Hne. apply ev_ext. intros j Ij. apply Hj. intros ->. contradiction.
Qed.

Lemma canon_dep_one e : canon e -> (In ONE (e_deps e) <-> ev (fun k => if (k =? ONE)%nat then 1 else 0) e <> 0).
Proof using Hord.
  intro C. change (fun k => if (k =? ONE)%nat then 1 else 0) with w_one. unfold ev.
  rewrite lin_one by apply sorted_nodup, C. destruct (canon_coef e ONE C) as [Hi Hd]. rewrite Z.mod_small by exact Hi. tauto.
Qed.

(** ** sum_of_wires with repetitions: each wire counts once *)
Lemma sum_of_wires_coef ws k : coef k (e_sum_of_wires ws) = if in_dec Nat.eq_dec k ws then 1 else 0.
Proof.
  unfold e_sum_of_wires, m_collect.
  assert (G : forall ws m, StronglySorted wire_lt (map fst m) -> 
    m_get k (fold_left (fun m kv => m_insert (fst kv) (snd kv) m) (map (fun w => (w, fone)) ws) m) =
    if in_dec Nat.eq_dec k ws then Some 1 else m_get k m).
  { clear ws. induction ws as [|a ws IH]; intros m S; [reflexivity|]. cbn [map fold_left fst snd].
    rewrite IH by (apply m_alter_sorted, S). unfold m_insert.
    destruct (in_dec Nat.eq_dec k ws) as [I|I], (in_dec Nat.eq_dec k (a :: ws)) as [J|J]; auto.
    - exfalso. apply J. right. exact I.
    - destruct J as [->|J]; [|contradiction]. rewrite m_get_alter_same by exact S. reflexivity.
    - apply m_get_alter_other. intros ->. apply J. left. reflexivity. }
  unfold coef. rewrite G by constructor. destruct (in_dec Nat.eq_dec k ws); reflexivity.
Qed.

End Eval.

(** ** wire values *)
Section Values.
Context {F : Field}.

Lemma set_binary_go (x : Z) bits : forall s v v',
  ofold (fun v' ik => v_set_boolean (snd ik) (zbit x (fst ik)) v') (combine (seq s (length bits)) bits) v = Ok v' ->
  NoDup bits /\ (forall k, In k bits -> m_get k v = None) /\
  (forall i, (i < length bits)%nat -> m_get (nth i bits 0%nat) v' = Some (b2z (zbit x (s + i)))) /\
  (forall k, ~ In k bits -> m_get k v' = m_get k v).
Proof.
  induction bits as [|w bits IH]; intros s v v' E; cbn [length seq combine ofold] in E.
  - inversion E; subst. split; [constructor|]. split; [intros k []|]. split; [intros i Hi; simpl in Hi; lia|reflexivity].
  - cbn [fst snd] in E. destruct (v_set_boolean w (zbit x s) v) as [v1| |] eqn:E1; try discriminate. cbn [obind] in E.
    destruct (v_set_ok _ _ _ _ E1) as (N1 & G1). destruct (IH _ _ _ E) as (ND & Fr & Gi & Go).
    assert (Nw : ~ In w bits). { intro I. specialize (Fr w I). rewrite G1, Nat.eqb_refl in Fr. discriminate. }
    split; [constructor; assumption|]. split; [|split].
    + intros k [<-|I]; [exact N1|]. specialize (Fr k I). rewrite G1 in Fr. destruct (k =? w)%nat; [discriminate|exact Fr].
    + intros i Hi. destruct i as [|i]; cbn [nth].
      * rewrite Go by exact Nw. rewrite G1, Nat.eqb_refl, Nat.add_0_r. destruct (zbit x s); reflexivity.
      * rewrite Gi by (simpl in Hi; lia). do 3 f_equal. lia.
    + intros k Hk. rewrite Go by (intro I; apply Hk; right; exact I). rewrite G1.
      destruct (Nat.eqb_spec k w) as [->|]; [exfalso; apply Hk; left; reflexivity|reflexivity].
Qed.

Lemma set_binary_panics (x : Z) bits : forall s v,
  ~ NoDup bits \/ (exists k, In k bits /\ m_get k v <> None) ->
  ofold (fun v' ik => v_set_boolean (snd ik) (zbit x (fst ik)) v') (combine (seq s (length bits)) bits) v = Panic.
Proof.
  intros s v H. destruct (ofold _ _ v) as [v'| |] eqn:E; [|reflexivity|].
  - destruct (set_binary_go x bits s v v' E) as (ND & Fr & _). destruct H as [H|(k & I & H)]; [contradiction|].
    rewrite (Fr k I) in H. congruence.
  - exfalso. clear H. revert s v E. induction bits as [|w bits IH]; intros s v E; [discriminate|].
    cbn [length seq combine ofold fst snd] in E. destruct (v_set_boolean w (zbit x s) v) as [v1| |] eqn:E1; cbn [obind] in E; [eapply IH, E|discriminate|].
    unfold v_set_boolean, v_set in E1. destruct (m_get w v); discriminate.
Qed.

Lemma set_binary_total (x : Z) bits : forall s v, NoDup bits -> (forall k, In k bits -> m_get k v = None) ->
  exists v', ofold (fun v' ik => v_set_boolean (snd ik) (zbit x (fst ik)) v') (combine (seq s (length bits)) bits) v = Ok v'.
Proof.
  induction bits as [|w bits IH]; intros s v ND Fr; [exists v; reflexivity|]. inversion ND as [|? ? N D]; subst.
  cbn [length seq combine ofold fst snd]. unfold v_set_boolean at 1.
  destruct (v_set_fresh w (fbool (zbit x s)) v (Fr w (or_introl eq_refl))) as (v1 & E1 & G1). rewrite E1. cbn [obind].
  apply IH; auto. intros k I. rewrite G1. destruct (Nat.eqb_spec k w) as [->|]; [contradiction|]. apply Fr. right. exact I.
Qed.

End Values.
