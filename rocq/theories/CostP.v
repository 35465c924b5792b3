(** Which calls panic, and how many constraints the others add. *)
From Coq Require Import ZArith List Bool Arith Lia Znumtheory.
From Verif Require Import Base FieldM FieldP ExprM BuilderM GadgetsM Spec ExprP BitsP SoundP CmpP CmpCompleteP GadgetCompleteP BinUtilP ArithP.
Import ListNotations.
Open Scope nat_scope.

(** From a builder that has handed out [N] wires the call succeeds; [Q] relates the result, the wires handed
    out afterwards and the number of constraints added. *)
Definition costs {A} (N : nat) (m : B A) (Q : A -> nat -> nat -> Prop) : Prop :=
  forall b, next b = N -> exists r b' k, m b = Ok (r, b') /\ N <= next b' /\
    length (constraints b') = length (constraints b) + k /\ Q r (next b') k.

Definition panics {A} (m : B A) : Prop := forall b, 0 < next b -> m b = Panic.

Section Logic.
Context {A C : Type}.

Lemma costs_ret N (a : A) (Q : A -> nat -> nat -> Prop) : Q a N 0 -> costs N (bret a) Q.
Proof. intros H b <-. exists a, b, 0. split; [reflexivity|]. split; [lia|]. split; [lia|exact H]. Qed.

Lemma costs_bind N (m : B A) (k : A -> B C) Q R : costs N m Q ->
  (forall a N' c, N <= N' -> Q a N' c -> costs N' (k a) (fun r N2 c2 => R r N2 (c + c2))) -> costs N (bbind m k) R.
Proof.
  intros H1 H2 b Hb. destruct (H1 b Hb) as (a & b1 & c & E1 & L1 & C1 & HQ).
  destruct (H2 a (next b1) c L1 HQ b1 eq_refl) as (r & b2 & c2 & E2 & L2 & C2 & HR).
  exists r, b2, (c + c2). unfold bbind. rewrite E1. split; [exact E2|]. split; [lia|]. split; [lia|exact HR].
Qed.

Lemma costs_weaken N (m : B A) (Q Q' : A -> nat -> nat -> Prop) : costs N m Q -> (forall a N' k, N <= N' -> Q a N' k -> Q' a N' k) -> costs N m Q'.
Proof.
  intros H1 H2 b Hb. destruct (H1 b Hb) as (a & b1 & c & E1 & L1 & C1 & HQ). exists a, b1, c. auto.
Qed.

Lemma costs_lift N (o : outcome A) a (k : A -> B C) R : o = Ok a -> costs N (k a) R -> costs N (bbind (blift o) k) R.
Proof. intros -> H b Hb. destruct (H b Hb) as (r & b1 & c & E & T). exists r, b1, c. split; [exact E|exact T]. Qed.

Lemma panics_lift (o : outcome A) (k : A -> B C) : o = Panic -> panics (bbind (blift o) k).
Proof. intros -> b _. reflexivity. Qed.

Lemma panics_liftb (o : outcome A) a (k : A -> B C) : o = Ok a -> panics (k a) -> panics (bbind (blift o) k).
Proof. intros -> H b Hb. exact (H b Hb). Qed.

Lemma panics_first (m : B A) (k : A -> B C) : panics m -> panics (bbind m k).
Proof. intros H b Hb. unfold bbind. rewrite H by exact Hb. reflexivity. Qed.

Lemma panics_bind (m : B A) (k : A -> B C) Q : (forall N, 0 < N -> costs N m Q) -> (forall a N c, Q a N c -> panics (k a)) -> panics (bbind m k).
Proof.
  intros H1 H2 b Hb. destruct (H1 (next b) Hb b eq_refl) as (a & b1 & c & E1 & L1 & _ & HQ). unfold bbind. rewrite E1.
  apply (H2 _ _ _ HQ). lia.
Qed.
End Logic.

Ltac kbind T := eapply costs_bind; [T|cbv beta].

Section Cost.
Context {F : Field}.

Lemma costs_wire N : costs N b_wire (fun w N' k => w = N /\ N' = S N /\ k = 0).
Proof. intros b <-. unfold b_wire. do 3 eexists. split; [reflexivity|]. cbn. split; [lia|]. split; [symmetry; apply Nat.add_0_r|auto]. Qed.

Lemma costs_wires N n : costs N (b_wires n) (fun ws N' k => ws = seq N n /\ N' = N + n /\ k = 0).
Proof.
  intros b <-. rewrite wires_spec. do 3 eexists. split; [reflexivity|]. cbn. split; [lia|]. split; [symmetry; apply Nat.add_0_r|auto].
Qed.

Lemma costs_generator N d r : costs N (b_generator d r) (fun _ N' k => N' = N /\ k = 0).
Proof. intros b <-. unfold b_generator. do 3 eexists. split; [reflexivity|]. cbn. split; [lia|]. split; [symmetry; apply Nat.add_0_r|auto]. Qed.

Lemma costs_assert_product N x y z : costs N (assert_product x y z) (fun _ N' k => N' = N /\ k = 1).
Proof.
  intros b <-. unfold assert_product. do 3 eexists. split; [reflexivity|]. cbn. split; [lia|].
  split; [rewrite app_length; reflexivity|auto].
Qed.

Lemma costs_assert_equal N x y : costs N (assert_equal x y) (fun _ N' k => N' = N /\ k = 1).
Proof. apply costs_assert_product. Qed.
Lemma costs_assert_zero N x : costs N (assert_zero x) (fun _ N' k => N' = N /\ k = 1).
Proof. apply costs_assert_product. Qed.
Lemma costs_assert_true N x : costs N (assert_true x) (fun _ N' k => N' = N /\ k = 1).
Proof. apply costs_assert_product. Qed.

Lemma costs_assert_boolean N x : costs N (assert_boolean x) (fun r N' k => r = x /\ N' = N /\ k = 1).
Proof.
  unfold assert_boolean. kbind ltac:(apply costs_assert_product). intros _ N' c _ [-> ->]. apply costs_ret. auto.
Qed.

Lemma costs_boolean_wire N : costs N boolean_wire (fun w N' k => w = N /\ N' = S N /\ k = 1).
Proof.
  unfold boolean_wire. kbind ltac:(apply costs_wire). intros w N1 c1 _ (-> & -> & ->).
  kbind ltac:(apply costs_assert_boolean). intros ? N2 c2 _ (_ & -> & ->). apply costs_ret. auto.
Qed.

(** A list of calls, each adding exactly [n] constraints. *)
Lemma costs_bmap {A C} (f : A -> B C) n l : (forall a N, In a l -> 0 < N -> costs N (f a) (fun _ _ k => k = n)) ->
  forall N, 0 < N -> costs N (bmap f l) (fun r _ k => length r = length l /\ k = n * length l).
Proof.
  induction l as [|a l IH]; intros H N HN; cbn [bmap length]; [apply costs_ret; cbn [length]; lia|].
  kbind ltac:(apply H; [left; reflexivity|exact HN]). intros c N1 k1 L1 ->.
  kbind ltac:(apply IH; [intros; apply H; [right|]; assumption|lia]). intros cs N2 k2 L2 [E ->]. apply costs_ret. cbn [length]. lia.
Qed.

Lemma costs_binary_wire N n : 0 < N -> costs N (binary_wire n) (fun ws _ k => length ws = n /\ k = n).
Proof.
  intro HN. unfold binary_wire. eapply costs_weaken; [apply costs_bmap with (n := 1); [|exact HN]|].
  - intros a N' _ _. eapply costs_weaken; [apply costs_boolean_wire|]. cbv beta. tauto.
  - cbv beta. intros ws N' k _ [E ->]. rewrite seq_length in *. lia.
Qed.

(** A fold over [seq k n] with an invariant on position, state, wires and cost. *)
Lemma costs_bfold_seq {S0} (f : S0 -> nat -> B S0) (I : nat -> S0 -> nat -> nat -> Prop) k n s N :
  I k s N 0 ->
  (forall i s N' c, k <= i < k + n -> N <= N' -> I i s N' c -> costs N' (f s i) (fun s' N2 c2 => I (S i) s' N2 (c + c2))) ->
  costs N (bfold f (seq k n) s) (fun s' N' c => I (k + n) s' N' c).
Proof.
  intros H0 Hs.
  assert (G : forall n' i s N' c, i + n' = k + n -> k <= i -> N <= N' -> I i s N' c ->
     costs N' (bfold f (seq i n') s) (fun s' N2 c2 => I (k + n) s' N2 (c + c2))).
  { induction n' as [|n' IH]; intros i s0 N' c E L LN HI; cbn [seq bfold].
    - apply costs_ret. rewrite Nat.add_0_r. replace (k + n) with i by lia. exact HI.
    - kbind ltac:(apply Hs; [lia|exact LN|exact HI]). intros s' N1 c1 L1 HI'.
      eapply costs_weaken; [apply IH with (c := c + c1); [lia|lia|lia|exact HI']|]. cbv beta.
      intros a N2 k2 _ H. rewrite <- Nat.add_assoc in H. exact H. }
  eapply costs_weaken; [apply (G n k s N 0); auto; lia|]. cbv beta. intros a N' c _ H. exact H.
Qed.

Lemma as_constant_wire k : k <> ONE -> e_as_constant (e_wire k) = None.
Proof.
  intro H. destruct (e_as_constant (e_wire k)) eqn:E; [|reflexivity]. apply as_constant_spec in E.
  unfold e_wire in E. cbn in E. congruence.
Qed.

Lemma costs_product N x y : costs N (product x y) (fun r N' k =>
   (e_as_constant x = None -> e_as_constant y = None -> r = e_wire N /\ N' = S N /\ k = 1) /\
   ((e_as_constant x <> None \/ e_as_constant y <> None) -> N' = N /\ k = 0)).
Proof.
  unfold product. destruct (e_as_constant x) as [c|]; [apply costs_ret; split; [congruence|auto]|].
  destruct (e_as_constant y) as [c|]; [apply costs_ret; split; [congruence|auto]|].
  kbind ltac:(apply costs_wire). intros w N1 c1 _ (-> & -> & ->).
  kbind ltac:(apply costs_assert_product). intros _ N2 c2 _ (-> & ->).
  kbind ltac:(apply costs_generator). intros _ N3 c3 _ (-> & ->).
  apply costs_ret. split; [auto|]. intros [H|H]; congruence.
Qed.

Lemma costs_product_le N x y : costs N (product x y) (fun r N' k => k <= 1).
Proof.
  eapply costs_weaken; [apply costs_product|]. cbv beta. intros a N' k _ [H1 H2].
  destruct (e_as_constant x) eqn:E1; [|destruct (e_as_constant y) eqn:E2].
  - destruct H2 as [_ ->]; [left; congruence|lia].
  - destruct H2 as [_ ->]; [right; congruence|lia].
  - destruct H1 as (_ & _ & ->); [reflexivity|reflexivity|lia].
Qed.

Lemma costs_inverse N x : costs N (inverse x) (fun r N' k => r = e_wire N /\ N' = S N /\ k = 1).
Proof.
  unfold inverse.
  kbind ltac:(apply costs_wire). intros w N1 c1 _ (-> & -> & ->).
  kbind ltac:(apply costs_assert_product). intros _ N2 c2 _ (-> & ->).
  kbind ltac:(apply costs_generator). intros _ N3 c3 _ (-> & ->). apply costs_ret. auto.
Qed.

Lemma costs_assert_nonzero N x : costs N (assert_nonzero x) (fun r N' k => k = 1).
Proof.
  unfold assert_nonzero. kbind ltac:(apply costs_inverse). intros w N1 c1 _ (_ & _ & ->). apply costs_ret. auto.
Qed.

Lemma costs_swrc (Hord : (2 <= order)%Z) N x n : 0 < N -> n <= max_bits ->
  costs N (split_without_range_check x n) (fun r N' k => length r = n /\ k = S n).
Proof.
  intros HN Hn. unfold split_without_range_check. kbind ltac:(apply costs_binary_wire; exact HN). intros ws N1 c1 L1 (Lw & ->).
  cbv zeta. assert (Lb : length (bin_of_wires ws) = n) by (unfold bin_of_wires; rewrite map_length; exact Lw).
  destruct (join_gen Hord (bin_of_wires ws) ltac:(lia)) as (e & E & _ & _). eapply costs_lift; [exact E|].
  kbind ltac:(apply costs_assert_equal). intros _ N2 c2 _ (-> & ->).
  kbind ltac:(apply costs_generator). intros _ N3 c3 _ (-> & ->). apply costs_ret. split; [exact Lb|lia].
Qed.

Lemma costs_split_bounded (Hord : (2 <= order)%Z) N x n : 0 < N -> n < max_bits ->
  costs N (split_bounded x n) (fun r N' k => length r = n /\ k = S n).
Proof.
  intros HN Hn. unfold split_bounded. eapply costs_lift.
  - unfold oassert. destruct (Nat.ltb_spec n max_bits); [reflexivity|lia].
  - apply costs_swrc; auto. lia.
Qed.

Lemma panics_split_bounded x n : max_bits <= n -> panics (split_bounded x n).
Proof.
  intro H. apply panics_lift. unfold oassert. destruct (Nat.ltb_spec n max_bits); [lia|reflexivity].
Qed.

Lemma fshl_one (Hord : (2 <= order)%Z) c : c < max_bits -> fshl fone c = Ok (2 ^ Z.of_nat c)%Z.
Proof.
  intro H. pose proof (pow2_lt_order Hord c H). pose proof (pow2_pos c). unfold fshl, fone. rewrite Z.mul_1_l.
  unfold el_from, oassert. destruct (Z.ltb_spec (2 ^ Z.of_nat c) order); [|lia]. reflexivity.
Qed.

Lemma costs_cmp_subtractive (Hord : (2 <= order)%Z) N d less strict c : 0 < N -> S c < max_bits ->
  costs N (cmp_subtractive d less strict c) (fun r N' k => k = c + 2).
Proof.
  intros HN Hc. unfold cmp_subtractive. eapply costs_lift; [apply fshl_one; [exact Hord|lia]|]. cbv zeta.
  kbind ltac:(apply costs_split_bounded; [exact Hord|exact HN|lia]). intros zb N1 k1 _ [L ->].
  intros b Hb. unfold blift, oindex. rewrite (nth_error_nth' zb e_zero) by lia. do 3 eexists.
  split; [reflexivity|]. split; [lia|]. split; [symmetry; apply Nat.add_0_r|lia].
Qed.

Lemma panics_cmp_subtractive d less strict c : max_bits <= S c -> panics (cmp_subtractive d less strict c).
Proof.
  intro H. unfold cmp_subtractive. destruct (fshl fone c) as [z| |] eqn:E.
  - eapply panics_liftb; [reflexivity|]. cbv zeta. apply panics_first. apply panics_split_bounded. lia.
  - apply panics_lift. reflexivity.
  - unfold fshl, el_from, oassert in E. destruct (_ <? _)%Z; discriminate.
Qed.

(** ** comparison *)
Definition nonconst_chunks (xc yc : list expr) : Prop :=
  forall i, i < length xc -> e_as_constant (e_sub (nth i xc e_zero) (nth i yc e_zero)) = None.

Lemma oindex_nth {A} (l : list A) i d : i < length l -> oindex l i = Ok (nth i l d).
Proof. apply oindex_ok. Qed.

(** wires of [dc] and their coefficients, semantically *)
Definition is_wire_sum (e : expr) (ws : list nat) : Prop :=
  forall w : witness, (forall k, infield (w k)) -> ev w e = (fold_right (fun k s => w k + s) 0 ws mod order)%Z.

Lemma wire_sum_minus_one (Hord : (2 <= order)%Z) e k ws : is_wire_sum e (k :: ws) -> ~ In ONE (k :: ws) -> NoDup (k :: ws) ->
  e_as_constant (e_sub e e_one) = None.
Proof.
  intros H HN HD. destruct (e_as_constant (e_sub e e_one)) as [c|] eqn:E; [exfalso|reflexivity].
  set (w0 := fun i => if i =? 0 then 1%Z else 0%Z : Z).
  assert (W0 : forall i, infield (w0 i)) by (intro i; unfold w0, infield; destruct (i =? 0); lia).
  set (w1 := fun i => if i =? k then 1%Z else w0 i).
  assert (W1 : forall i, infield (w1 i)) by (intro i; unfold w1, infield; destruct (i =? k); [lia|apply W0]).
  assert (Z0 : forall l, ~ In ONE l -> fold_right (fun k s => w0 k + s)%Z 0%Z l = 0%Z).
  { induction l as [|a l IH]; intro Hl; [reflexivity|]. cbn [fold_right]. rewrite IH by (intro; apply Hl; right; assumption).
    unfold w0. destruct (Nat.eqb_spec a 0) as [Ea|]; [exfalso; apply Hl; left; exact Ea|lia]. }
  assert (Z1 : forall l, ~ In ONE l -> ~ In k l -> fold_right (fun k s => w1 k + s)%Z 0%Z l = 0%Z).
  { induction l as [|a l IH]; intros Hl Hk; [reflexivity|]. cbn [fold_right].
    rewrite IH by (first [intro; apply Hl; right; assumption|intro; apply Hk; right; assumption]).
    unfold w1, w0. destruct (Nat.eqb_spec a k) as [Ea|]; [exfalso; apply Hk; left; exact Ea|].
    destruct (Nat.eqb_spec a 0) as [Ea|]; [exfalso; apply Hl; left; exact Ea|lia]. }
  assert (H1 : w1 ONE = 1%Z) by (unfold w1; destruct (ONE =? k); reflexivity).
  pose proof (ev_as_constant Hord w0 _ c eq_refl E) as E0. pose proof (ev_as_constant Hord w1 _ c H1 E) as E1.
  rewrite (ev_sub Hord), (ev_one Hord) in E0 by reflexivity. rewrite (ev_sub Hord), (ev_one Hord) in E1 by exact H1.
  rewrite H in E0 by exact W0. rewrite H in E1 by exact W1.
  cbn [fold_right] in E1. rewrite Z0 in E0 by exact HN.
  inversion HD as [|? ? Hk HD']; subst. rewrite Z1 in E1 by (first [exact Hk|intro; apply HN; right; assumption]).
  assert (Ek : w1 k = 1%Z) by (unfold w1; rewrite Nat.eqb_refl; reflexivity). rewrite Ek in E1.
  rewrite Z.add_0_r in E1. rewrite Z.mod_0_l in E0 by lia. rewrite Z.mod_1_l in E1 by lia.
  assert (EE : feqm (fsub 0 1) (fsub 1 1)) by (rewrite E0, E1; reflexivity).
  rewrite !(fsub_eqm Hord) in EE. unfold feqm in EE. change (0 - 1)%Z with (-1)%Z in EE. change (1 - 1)%Z with 0%Z in EE.
  rewrite Z.mod_0_l in EE by lia. apply Z.mod_divide in EE; [|lia]. destruct EE as [q EE].
  assert (Q : (q = 0 \/ q >= 1 \/ q <= -1)%Z) by lia. destruct Q as [Q|[Q|Q]]; [subst q; lia|nia|nia].
Qed.

Lemma as_constant_sum_of_wires ws : ~ In ONE ws -> e_as_constant (e_sum_of_wires ws) = None.
Proof.
  intro H. destruct (e_as_constant (e_sum_of_wires ws)) as [c|] eqn:E; [exfalso|reflexivity].
  apply as_constant_spec in E.
  assert (O : over (fun k => In k ws) (e_sum_of_wires ws)) by (apply over_sum_of_wires; apply Forall_forall; auto).
  rewrite E in O. apply H, O. left. reflexivity.
Qed.

Lemma chunk_length bits c es : 0 < c ->
  (let! cs := bin_chunks bits c in omap bin_join cs) = Ok es -> length es = ceil_div (length bits) c.
Proof.
  intros Hc E. unfold bin_chunks, chunks in E. destruct (Nat.eqb_spec c 0); [lia|]. simpl in E.
  rewrite <- (chunks_fuel_length c Hc (length bits) bits (le_n _)).
  generalize dependent es. generalize (chunks_fuel (length bits) c bits). clear.
  induction l as [|x l IH]; intros es E; cbn [omap] in E; [injection E as <-; reflexivity|].
  destruct (bin_join x); try discriminate. simpl in E. destruct (omap bin_join l); try discriminate. simpl in E.
  injection E as <-. cbn [length]. f_equal. apply IH. reflexivity.
Qed.

(** Everything before the final subtraction. *)
Definition cmp_head (x_chunks y_chunks : list expr) (deps : list wire) (strict : bool) : B expr :=
  let n := length x_chunks in
  mask <- b_wires n ;;
  bmap (fun m => assert_boolean (e_wire m)) mask ;;
  diff_exists <- assert_boolean (e_sum_of_wires mask) ;;
  b_generator deps (cmp_mask_run x_chunks y_chunks mask) ;;
  diff_chunk <- bfold (fun sum i =>
      xc <- blift (oindex x_chunks i) ;;
      yc <- blift (oindex y_chunks i) ;;
      m <- blift (oindex mask i) ;;
      t <- product (e_wire m) (e_sub xc yc) ;;
      bret (e_add sum t)) (seq 0 n) e_zero ;;
  m0 <- blift (oindex mask 0) ;;
  bfold (fun diff_seen i =>
      xc <- blift (oindex x_chunks i) ;;
      yc <- blift (oindex y_chunks i) ;;
      assert_product diff_seen (e_sub xc yc) e_zero ;;
      m <- blift (oindex mask i) ;;
      bret (e_add diff_seen (e_wire m))) (seq 1 (n - 1)) (e_wire m0) ;;
  (if strict then bret tt
   else nz <- selection diff_exists diff_chunk e_one ;; assert_nonzero nz) ;;
  bret diff_chunk.

Lemma bbind_assoc {A C D} (m : B A) (f : A -> B C) (g : C -> B D) b :
  bbind (bbind m f) g b = bbind m (fun a => bbind (f a) g) b.
Proof. unfold bbind. destruct (m b) as [[a b1]| |]; reflexivity. Qed.

Lemma bbind_ext {A C} (m : B A) (f g : A -> B C) b : (forall a b, f a b = g a b) -> bbind m f b = bbind m g b.
Proof. intro H. unfold bbind. destruct (m b) as [[a b1]| |]; auto. Qed.

Lemma cmp_binary_head x y less strict b :
  cmp_binary x y less strict b =
  (blift (oassert (length x =? length y)) ;;
   x_chunks <- blift (let! cs := bin_chunks x (cmp_chunk_bits (length x)) in omap bin_join cs) ;;
   y_chunks <- blift (let! cs := bin_chunks y (cmp_chunk_bits (length x)) in omap bin_join cs) ;;
   dc <- cmp_head x_chunks y_chunks (bin_deps x ++ bin_deps y) strict ;;
   cmp_subtractive dc less strict (cmp_chunk_bits (length x))) b.
Proof.
  unfold cmp_binary, cmp_head. cbv zeta.
  apply bbind_ext. intros _ b1. apply bbind_ext. intros xc b2. apply bbind_ext. intros yc b3.
  rewrite bbind_assoc. apply bbind_ext. intros ? ?. rewrite bbind_assoc. apply bbind_ext. intros ? ?.
  rewrite bbind_assoc. apply bbind_ext. intros ? ?. rewrite bbind_assoc. apply bbind_ext. intros ? ?.
  rewrite bbind_assoc. apply bbind_ext. intros ? ?. rewrite bbind_assoc. apply bbind_ext. intros ? ?.
  rewrite bbind_assoc. apply bbind_ext. intros ? ?. rewrite bbind_assoc. apply bbind_ext. intros ? ?. reflexivity.
Qed.

Lemma costs_cmp_head (Hord : (2 <= order)%Z) N xc yc deps strict : 0 < N -> 0 < length xc -> length yc = length xc ->
  let n := length xc in
  costs N (cmp_head xc yc deps strict) (fun _ _ k =>
    k <= 3 * n + (if strict then 0 else 2) /\
    (nonconst_chunks xc yc -> k = 3 * n + (if strict then 0 else 2))).
Proof.
  intros HN Hn0 Ly n. unfold cmp_head. fold n. cbv zeta.
  kbind ltac:(apply costs_wires). intros mask N1 k1 _ (Em & -> & ->).
  assert (Lm : length mask = n) by (rewrite Em; apply seq_length).
  assert (HM : forall i, i < n -> nth i mask 0 = N + i) by (intros i Hi; rewrite Em; apply seq_nth; exact Hi).
  assert (ND : NoDup mask) by (rewrite Em; apply seq_NoDup).
  assert (NO : ~ In ONE mask) by (rewrite Em; intro Hi; apply in_seq in Hi; unfold ONE in Hi; lia).
  kbind ltac:(apply costs_bmap with (n := 1); [|lia]).
  { intros m N' _ _. eapply costs_weaken; [apply costs_assert_boolean|]. cbv beta. tauto. }
  intros ? N2 k2 L2 [_ ->].
  kbind ltac:(apply costs_assert_boolean). intros de N3 k3 _ (-> & -> & ->).
  kbind ltac:(apply costs_generator). intros ? N4 k4 _ (-> & ->).
  eapply costs_bind with (Q := fun dc N' k => k <= n /\
     (nonconst_chunks xc yc -> k = n /\ exists ws, length ws = n /\ is_wire_sum dc ws /\ NoDup ws /\ Forall (fun k => 0 < k < N') ws)).
  { apply costs_bfold_seq with (k := 0) (I := fun i dc N' k => k <= i /\
      (nonconst_chunks xc yc -> k = i /\ exists ws, length ws = i /\ is_wire_sum dc ws /\ NoDup ws /\ Forall (fun k => 0 < k < N') ws)).
    - split; [lia|]. intros _. split; [reflexivity|]. exists []. split; [reflexivity|]. split; [|split; constructor].
      intros w Hw. rewrite (ev_zero Hord). cbn [fold_right]. rewrite Z.mod_0_l by lia. reflexivity.
    - intros i dc N' c Hi LN [Hk HI].
      eapply costs_lift; [apply (oindex_nth xc i e_zero); fold n; lia|].
      eapply costs_lift; [apply (oindex_nth yc i e_zero); rewrite Ly; fold n; lia|].
      eapply costs_lift; [apply (oindex_nth mask i 0); lia|].
      eapply costs_bind with (Q := fun r N2 k => k <= 1 /\ (nonconst_chunks xc yc -> r = e_wire N' /\ N2 = S N' /\ k = 1)).
      + eapply costs_weaken; [apply costs_product|]. cbv beta. intros r N5 k5 _ [P1 P2].
        assert (Wn : e_as_constant (e_wire (nth i mask 0)) = None) by (apply as_constant_wire; rewrite HM by lia; unfold ONE; lia).
        split; [|intro HC; apply P1; [exact Wn|apply HC; fold n; lia]].
        destruct (e_as_constant (e_sub (nth i xc e_zero) (nth i yc e_zero))) eqn:E2.
        * destruct P2 as [_ ->]; [right; discriminate|lia].
        * destruct P1 as (_ & _ & ->); auto.
      + cbv beta. intros r N5 k5 L5 [Hk5 P]. apply costs_ret. split; [lia|]. intro HC.
        destruct (HI HC) as (-> & ws & Lw & Hs & Hd & Hf). destruct (P HC) as (-> & -> & ->). split; [lia|].
        exists (N' :: ws). split; [cbn [length]; lia|]. split; [|split].
        * intros w Hw. rewrite (ev_add Hord), (ev_wire Hord) by apply Hw. rewrite Hs by exact Hw. cbn [fold_right].
          unfold fadd. rewrite Zplus_mod_idemp_l, Z.add_comm. reflexivity.
        * constructor; [|exact Hd]. intro Hin. rewrite Forall_forall in Hf. specialize (Hf _ Hin). lia.
        * constructor; [lia|]. eapply Forall_impl; [|exact Hf]. cbv beta. intros; lia. }
  intros dc N5 k5 L5 [Hk5 HI].
  eapply costs_lift; [apply (oindex_nth mask 0 0); lia|].
  eapply costs_bind with (Q := fun _ _ k => k = n - 1).
  { eapply costs_weaken; [apply costs_bfold_seq with (I := fun i _ _ k => k = i - 1); [reflexivity|]|].
    - intros i ds N' c Hi LN ->.
      eapply costs_lift; [apply (oindex_nth xc i e_zero); fold n; lia|].
      eapply costs_lift; [apply (oindex_nth yc i e_zero); rewrite Ly; fold n; lia|].
      kbind ltac:(apply costs_assert_product). intros _ N6 k6 _ [-> ->].
      eapply costs_lift; [apply (oindex_nth mask i 0); lia|]. apply costs_ret. lia.
    - cbv beta. intros _ N' k _ ->. lia. }
  intros _ N6 k6 L6 ->.
  eapply costs_bind with (Q := fun _ _ k => k <= (if strict then 0 else 2) /\ (nonconst_chunks xc yc -> k = if strict then 0 else 2)).
  { destruct strict; [apply costs_ret; auto|].
    eapply costs_bind with (Q := fun _ _ k => k <= 1 /\ (nonconst_chunks xc yc -> k = 1)).
    - unfold selection. eapply costs_bind with (Q := fun _ _ k => k <= 1 /\ (nonconst_chunks xc yc -> k = 1)).
      + eapply costs_weaken; [apply costs_product|]. cbv beta. intros r N7 k7 _ [P1 P2].
        pose proof (as_constant_sum_of_wires mask NO) as C1. split.
        * destruct (e_as_constant (e_sub dc e_one)) eqn:C2; [destruct P2 as [_ ->]; [right; discriminate|lia]|].
          destruct P1 as (_ & _ & ->); auto.
        * intro HC. destruct (HI HC) as (_ & ws & Lw & Hs & Hd & Hf). destruct ws as [|k ws]; [cbn [length] in Lw; lia|].
          destruct P1 as (_ & _ & ->); auto. eapply wire_sum_minus_one; [exact Hord|exact Hs| |exact Hd].
          intro Hin. rewrite Forall_forall in Hf. specialize (Hf _ Hin). unfold ONE in Hf. lia.
      + cbv beta. intros r N7 k7 _ HH. apply costs_ret. rewrite Nat.add_0_r. exact HH.
    - cbv beta. intros r N7 k7 _ [H1 H2]. eapply costs_weaken; [apply costs_assert_nonzero|]. cbv beta. intros ? ? ? _ ->.
      split; [lia|]. intro HC. rewrite (H2 HC). reflexivity. }
  cbv beta. intros _ N7 k7 L7 [H1 H2]. apply costs_ret. rewrite Lm in *. split; [lia|]. intro HC. specialize (H2 HC). destruct (HI HC) as [-> _]. lia.
Qed.

(** The exact condition for a binary comparison to be built, and its cost. *)
Lemma costs_cmp_binary (Hp : prime order) N x y less strict xc yc :
  let c := cmp_chunk_bits (length x) in
  0 < N -> length x = length y -> 0 < length x -> S c < max_bits ->
  (let! cs := bin_chunks x c in omap bin_join cs) = Ok xc -> (let! cs := bin_chunks y c in omap bin_join cs) = Ok yc ->
  costs N (cmp_binary x y less strict) (fun _ _ k =>
    k <= cmp_constraints (length x) c + (if strict then 0 else 2) /\
    (nonconst_chunks xc yc -> k = cmp_constraints (length x) c + (if strict then 0 else 2))).
Proof.
  intros c HN L L0 Hc Ex Ey. pose proof (prime_ge2 Hp) as Hord.
  destruct (cmp_chunk_bits_spec (length x)) as (Hc1 & _ & _). fold c in Hc1.
  assert (Lx := chunk_length x c xc ltac:(lia) Ex). assert (Ly := chunk_length y c yc ltac:(lia) Ey).
  assert (Hn0 : 0 < length xc).
  { destruct (ceil_div_spec (length x) c ltac:(lia)) as (A & _ & _). rewrite <- Lx in A. destruct (length xc); lia. }
  intros b Hb. rewrite cmp_binary_head. revert b Hb.
  change (costs N (blift (oassert (length x =? length y)) ;;
   x_chunks <- blift (let! cs := bin_chunks x c in omap bin_join cs) ;;
   y_chunks <- blift (let! cs := bin_chunks y c in omap bin_join cs) ;;
   dc <- cmp_head x_chunks y_chunks (bin_deps x ++ bin_deps y) strict ;;
   cmp_subtractive dc less strict c) (fun _ _ k =>
    k <= cmp_constraints (length x) c + (if strict then 0 else 2) /\
    (nonconst_chunks xc yc -> k = cmp_constraints (length x) c + (if strict then 0 else 2)))).
  eapply costs_lift; [rewrite L, Nat.eqb_refl; reflexivity|].
  eapply costs_lift; [exact Ex|]. eapply costs_lift; [exact Ey|].
  kbind ltac:(apply (costs_cmp_head Hord); [exact HN|exact Hn0|rewrite Ly, <- L, Lx; reflexivity]).
  intros dc N1 k1 L1 [H1 H2]. eapply costs_weaken; [apply (costs_cmp_subtractive Hord); [lia|exact Hc]|].
  cbv beta. intros _ N2 k2 _ ->. unfold cmp_constraints. cbv zeta. fold (ceil_div (length x) c). rewrite <- Lx.
  split; [lia|]. intro HC. rewrite (H2 HC). lia.
Qed.

Lemma bin_join_fuel x : bin_join x <> NoFuel.
Proof.
  unfold bin_join, bin_join_allowing_overflow, oassert. destruct (_ <=? _)%Z; [|discriminate]. cbn [obind].
  generalize (enumerate x) e_zero. induction l as [|a l IH]; intro e; cbn [ofold]; [discriminate|].
  unfold fshl, el_from, oassert. destruct (_ <? _)%Z; [|discriminate]. apply IH.
Qed.

Lemma chunks_ok (Hp : prime order) c bits : 0 < c < max_bits -> exists es, (let! cs := bin_chunks bits c in omap bin_join cs) = Ok es.
Proof. intro H. destruct (chunk_ok Hp c H bits) as (es & E & _). eauto. Qed.

Lemma panics_cmp_binary (Hp : prime order) x y less strict :
  length x <> length y \/ length x = 0 \/ max_bits <= S (cmp_chunk_bits (length x)) -> panics (cmp_binary x y less strict).
Proof.
  intros H. pose proof (prime_ge2 Hp) as Hord. intros b Hb. rewrite cmp_binary_head. revert b Hb.
  change (panics (blift (oassert (length x =? length y)) ;;
   x_chunks <- blift (let! cs := bin_chunks x (cmp_chunk_bits (length x)) in omap bin_join cs) ;;
   y_chunks <- blift (let! cs := bin_chunks y (cmp_chunk_bits (length x)) in omap bin_join cs) ;;
   dc <- cmp_head x_chunks y_chunks (bin_deps x ++ bin_deps y) strict ;;
   cmp_subtractive dc less strict (cmp_chunk_bits (length x)))).
  destruct (Nat.eqb_spec (length x) (length y)) as [L|L]; [|apply panics_lift; reflexivity].
  eapply panics_liftb; [reflexivity|].
  destruct (cmp_chunk_bits_spec (length x)) as (Hc1 & Hc2 & _). set (c := cmp_chunk_bits (length x)) in *.
  assert (JN : forall (z : binexpr), (let! cs := bin_chunks z c in omap bin_join cs) <> NoFuel).
  { intros z. unfold bin_chunks, chunks. destruct (c =? 0); [discriminate|]. cbn [obind]. generalize (chunks_fuel (length z) c z).
    induction l as [|a l IH]; cbn [omap]; [discriminate|].
    destruct (bin_join a) eqn:E; [| |exfalso; revert E; apply bin_join_fuel]; cbn [obind]; [|discriminate].
    destruct (omap bin_join l); cbn [obind]; [discriminate|discriminate|congruence]. }
  destruct (let! cs := bin_chunks x c in omap bin_join cs) as [xc| |] eqn:Ex; [|apply panics_lift; reflexivity|exfalso; eapply JN; exact Ex].
  eapply panics_liftb; [reflexivity|].
  destruct (let! cs := bin_chunks y c in omap bin_join cs) as [yc| |] eqn:Ey; [|apply panics_lift; reflexivity|exfalso; eapply JN; exact Ey].
  eapply panics_liftb; [reflexivity|].
  assert (Lx := chunk_length x c xc ltac:(lia) Ex). assert (Ly := chunk_length y c yc ltac:(lia) Ey).
  destruct (Nat.eq_dec (length x) 0) as [E0|E0].
  - destruct (ceil_div_spec (length x) c ltac:(lia)) as (_ & _ & A). specialize (A E0). rewrite A in Lx.
    destruct xc; [|discriminate]. intros b Hb. reflexivity.
  - assert (Hn0 : 0 < length xc).
    { destruct (ceil_div_spec (length x) c ltac:(lia)) as (A & _ & _). rewrite <- Lx in A. destruct (length xc); lia. }
    eapply panics_bind; [intros N HN; apply (costs_cmp_head Hord); [exact HN|exact Hn0|rewrite Ly, <- L, Lx; reflexivity]|].
    intros dc _ _ _. apply panics_cmp_subtractive. lia.
Qed.

(** ** fresh wires against anything else *)
Lemma omap_nth {A C} (f : A -> outcome C) l r : omap f l = Ok r -> forall i d d', i < length l -> f (nth i l d) = Ok (nth i r d').
Proof.
  revert r. induction l as [|a l IH]; intros r E i d d' Hi; cbn [omap] in E; [simpl in Hi; lia|].
  destruct (f a) as [c| |] eqn:Ea; try discriminate. cbn [obind] in E.
  destruct (omap f l) as [cs| |]; try discriminate. cbn [obind] in E. injection E as <-.
  destruct i as [|i]; [exact Ea|]. cbn [nth]. apply IH; [reflexivity|simpl in Hi; lia].
Qed.

Lemma omap_length {A C} (f : A -> outcome C) l r : omap f l = Ok r -> length r = length l.
Proof.
  revert r. induction l as [|a l IH]; intros r E; cbn [omap] in E; [injection E as <-; reflexivity|].
  destruct (f a); try discriminate. cbn [obind] in E. destruct (omap f l); try discriminate. cbn [obind] in E. injection E as <-.
  cbn [length]. f_equal. apply IH. reflexivity.
Qed.

Lemma nonconst_fresh (Hord : (2 <= order)%Z) ws y c xc yc (P : nat -> Prop) : 0 < c ->
  NoDup ws -> ~ In ONE ws -> Forall (over P) y -> (forall k, In k ws -> ~ P k) -> length ws = length y ->
  (let! cs := bin_chunks (map e_wire ws) c in omap bin_join cs) = Ok xc ->
  (let! cs := bin_chunks y c in omap bin_join cs) = Ok yc -> nonconst_chunks xc yc.
Proof.
  intros Hc ND NO HY HP L Ex Ey i Hi.
  pose proof (chunk_length _ _ _ Hc Ex) as Lx. pose proof (chunk_length _ _ _ Hc Ey) as Ly.
  unfold bin_chunks, chunks in Ex, Ey. destruct (Nat.eqb_spec c 0); [lia|]. cbn [obind] in Ex, Ey.
  pose proof (omap_length _ _ _ Ex) as Lx2. pose proof (omap_length _ _ _ Ey) as Ly2.
  rewrite map_length in Lx, Ex, Lx2. rewrite <- L in *.
  pose proof (omap_nth _ _ _ Ex i [] e_zero ltac:(lia)) as Jx. pose proof (omap_nth _ _ _ Ey i [] e_zero ltac:(lia)) as Jy.
  rewrite chunks_fuel_nth in Jx by (first [exact Hc|rewrite map_length; lia]).
  rewrite chunks_fuel_nth in Jy by (first [exact Hc|lia]).
  destruct (ceil_div_spec (length ws) c Hc) as (_ & B & _).
  assert (Hw : i * c < length ws).
  { assert (0 < length ws). { destruct (length ws) eqn:E0; [|lia]. destruct (ceil_div_spec 0 c Hc) as (_ & _ & Z). rewrite Z in Lx by reflexivity. lia. }
    specialize (B H). rewrite <- Lx in B. assert (i <= length xc - 1) by lia. nia. }
  set (xe := nth i xc e_zero) in *. set (ye := nth i yc e_zero) in *.
  destruct (bin_join_inv Hord _ _ Jx) as (_ & _ & Vx & _). destruct (bin_join_inv Hord _ _ Jy) as (_ & _ & Vy & Oy).
  destruct (e_as_constant (e_sub xe ye)) as [cc|] eqn:E; [exfalso|reflexivity].
  set (k := nth (i * c) ws 0). assert (Ik : In k ws) by (apply nth_In; exact Hw).
  set (w0 := fun j => if j =? 0 then 1%Z else 0%Z : Z). set (w1 := fun j => if j =? k then 1%Z else w0 j).
  assert (W0 : forall j, infield (w0 j)) by (intro j; unfold w0, infield; destruct (j =? 0); lia).
  assert (W1 : forall j, infield (w1 j)) by (intro j; unfold w1, infield; destruct (j =? k); [lia|apply W0]).
  assert (H1 : w1 ONE = 1%Z) by (unfold w1; destruct (ONE =? k); reflexivity).
  pose proof (ev_as_constant Hord w0 _ cc eq_refl E) as E0. pose proof (ev_as_constant Hord w1 _ cc H1 E) as E1.
  rewrite (ev_sub Hord) in E0, E1. rewrite (fsub_eqm Hord) in E0, E1.
  assert (EY : ev w1 ye = ev w0 ye).
  { apply ev_ext. intros j Hj. assert (Pj : P j).
    { apply (Oy P); [|exact Hj]. apply Forall_forall. intros e He. rewrite Forall_forall in HY. apply HY.
      rewrite <- (firstn_skipn (i * c) y). apply in_or_app. right.
      rewrite <- (firstn_skipn c (skipn (i * c) y)). apply in_or_app. left. exact He. }
    unfold w1. destruct (Nat.eqb_spec j k) as [->|]; [exfalso; exact (HP k Ik Pj)|reflexivity]. }
  assert (Esk : exists rest, skipn (i * c) ws = k :: rest /\ ~ In k rest /\ incl rest ws).
  { destruct (skipn (i * c) ws) as [|k' rest] eqn:Es.
    - apply (f_equal (@length nat)) in Es. rewrite skipn_length in Es. cbn [length] in Es. lia.
    - exists rest. assert (k' = k).
      { unfold k. rewrite <- (firstn_skipn (i * c) ws), Es. rewrite app_nth2; rewrite firstn_length, Nat.min_l by lia; [|lia].
        rewrite Nat.sub_diag. reflexivity. }
      subst k'. split; [reflexivity|]. rewrite <- (firstn_skipn (i * c) ws), Es in ND. apply NoDup_remove_2 in ND.
      split; [intro; apply ND, in_or_app; auto|]. intros j Hj. rewrite <- (firstn_skipn (i * c) ws), Es. apply in_or_app. right. right. exact Hj. }
  destruct Esk as (rest & Es & Nk & Inc).
  assert (EX : firstn c (skipn (i * c) (map e_wire ws)) = e_wire k :: map e_wire (firstn (c - 1) rest)).
  { rewrite skipn_map, Es. destruct c as [|c']; [lia|]. cbn [map firstn]. rewrite firstn_map. replace (S c' - 1) with c' by lia. reflexivity. }
  rewrite EX in Vx.
  assert (Zr : forall w, (forall j, infield (w j)) -> (forall j, In j rest -> w j = 0%Z) -> bin_val w (map e_wire (firstn (c - 1) rest)) = 0%Z).
  { intros w Ww Hz. assert (Hz' : forall j, In j (firstn (c - 1) rest) -> w j = 0%Z).
    { intros j Hj. apply Hz. rewrite <- (firstn_skipn (c - 1) rest). apply in_or_app. left. exact Hj. }
    clear - Hz' Ww Hord. induction (firstn (c - 1) rest) as [|j l IH]; [reflexivity|].
    change (bin_val w (map e_wire (j :: l))) with (ev w (e_wire j) + 2 * bin_val w (map e_wire l))%Z.
    rewrite IH by (intros j' Hj'; apply Hz'; right; exact Hj'). rewrite (ev_wire Hord) by apply Ww. rewrite Hz' by (left; reflexivity). reflexivity. }
  assert (Er0 : forall j, In j rest -> w0 j = 0%Z).
  { intros j Hj. unfold w0. destruct (Nat.eqb_spec j 0) as [->|]; [exfalso; apply NO, Inc, Hj|reflexivity]. }
  assert (Er1 : forall j, In j rest -> w1 j = 0%Z).
  { intros j Hj. unfold w1. destruct (Nat.eqb_spec j k) as [->|]; [exfalso; exact (Nk Hj)|apply Er0, Hj]. }
  assert (X0 : ev w0 xe = 0%Z).
  { rewrite Vx. change (bin_val w0 (e_wire k :: map e_wire (firstn (c - 1) rest))) with
      (ev w0 (e_wire k) + 2 * bin_val w0 (map e_wire (firstn (c - 1) rest)))%Z.
    rewrite (Zr w0 W0 Er0), (ev_wire Hord) by apply W0. unfold w0.
    destruct (Nat.eqb_spec k 0) as [Ek|]; [exfalso; apply NO; rewrite <- Ek at 1; exact Ik|]. cbn [Z.mul Z.add]. apply Z.mod_0_l. lia. }
  assert (X1 : ev w1 xe = 1%Z).
  { rewrite Vx. change (bin_val w1 (e_wire k :: map e_wire (firstn (c - 1) rest))) with
      (ev w1 (e_wire k) + 2 * bin_val w1 (map e_wire (firstn (c - 1) rest)))%Z.
    rewrite (Zr w1 W1 Er1), (ev_wire Hord) by apply W1. unfold w1. rewrite Nat.eqb_refl. apply Z.mod_1_l. lia. }
  rewrite X0 in E0. rewrite X1, EY, <- E0 in E1. set (v := ev w0 ye) in *.
  unfold feqm in E1. assert (D : (order | (1 - v) - (0 - v))%Z).
  { apply Z.mod_divide; [lia|]. rewrite Zminus_mod, E1, Z.sub_diag. apply Z.mod_0_l. lia. }
  replace ((1 - v) - (0 - v))%Z with 1%Z in D by ring. apply Z.divide_1_r_nonneg in D; lia.
Qed.

(** ** split and comparison of field elements *)
Lemma costs_binary_wire_seq N n : costs N (binary_wire n) (fun ws N' k => ws = seq N n /\ N' = N + n /\ k = n).
Proof.
  unfold binary_wire. generalize 0 at 1 as s. revert N. induction n as [|n IH]; intros N s; cbn [seq bmap].
  - apply costs_ret. rewrite Nat.add_0_r. auto.
  - kbind ltac:(apply costs_boolean_wire). intros w N1 k1 _ (-> & -> & ->).
    kbind ltac:(apply IH). intros ws N2 k2 _ (-> & -> & ->). apply costs_ret. split; [reflexivity|]. lia.
Qed.

Lemma costs_swrc_seq (Hord : (2 <= order)%Z) N x n : n <= max_bits ->
  costs N (split_without_range_check x n) (fun r N' k => r = map e_wire (seq N n) /\ N' = N + n /\ k = S n).
Proof.
  intros Hn. unfold split_without_range_check. kbind ltac:(apply costs_binary_wire_seq). intros ws N1 c1 L1 (-> & -> & ->).
  cbv zeta. unfold bin_of_wires.
  destruct (join_gen Hord (map e_wire (seq N n))) as (e & E & _ & _); [rewrite map_length, seq_length; exact Hn|].
  eapply costs_lift; [exact E|].
  kbind ltac:(apply costs_assert_equal). intros _ N2 c2 _ (-> & ->).
  kbind ltac:(apply costs_generator). intros _ N3 c3 _ (-> & ->). apply costs_ret. split; [reflexivity|lia].
Qed.

(** One comparison of [len]-bit words: the estimate, two more if not strict. *)
Definition cmp_cost (len : nat) (strict : bool) : nat :=
  cmp_constraints len (cmp_chunk_bits len) + (if strict then 0 else 2).

Lemma costs_cmp_fresh (Hp : prime order) N ws y less strict (P : nat -> Prop) : 0 < N ->
  NoDup ws -> ~ In ONE ws -> Forall (over P) y -> (forall k, In k ws -> ~ P k) -> length ws = length y -> 0 < length ws ->
  S (cmp_chunk_bits (length ws)) < max_bits ->
  costs N (cmp_binary (map e_wire ws) y less strict) (fun _ _ k => k = cmp_cost (length ws) strict).
Proof.
  intros HN ND NO HY HP L L0 Hc. pose proof (prime_ge2 Hp) as Hord.
  assert (Lm : length (map e_wire ws) = length ws) by apply map_length.
  destruct (cmp_chunk_bits_spec (length ws)) as (Hc1 & _ & _).
  destruct (chunks_ok Hp (cmp_chunk_bits (length ws)) (map e_wire ws) ltac:(lia)) as (xc & Ex).
  destruct (chunks_ok Hp (cmp_chunk_bits (length ws)) y ltac:(lia)) as (yc & Ey).
  eapply costs_weaken; [eapply (costs_cmp_binary Hp N (map e_wire ws) y less strict xc yc); rewrite ?Lm; auto|].
  cbv beta. rewrite Lm. intros _ N' k _ [_ H]. unfold cmp_cost. apply H.
  eapply (nonconst_fresh Hord) with (P := P); eauto.
Qed.

Lemma order_bits_len (Hp : prime order) : 2 < max_bits -> length (bin_from order) = max_bits.
Proof.
  intro H. assert (Ho : (2 < order)%Z) by (apply (bits_odd (prime_ge2 Hp)); lia).
  rewrite bin_from_length. apply (order_bits Hp Ho).
Qed.

Lemma bin_from_over z : Forall (over (fun k => k = ONE)) (bin_from z).
Proof. unfold bin_from. apply Forall_map, Forall_forall. intros i _. apply over_bool. reflexivity. Qed.

Definition split_cost : nat := S max_bits + (cmp_cost max_bits true + 1).

Lemma costs_split (Hp : prime order) N x : 0 < N -> 4 <= max_bits ->
  costs N (split x) (fun r N' k => r = map e_wire (seq N max_bits) /\ N + max_bits <= N' /\ k = split_cost).
Proof.
  intros HN H4. pose proof (prime_ge2 Hp) as Hord. unfold split.
  kbind ltac:(apply (costs_swrc_seq Hord); lia). intros r N1 k1 _ (-> & -> & ->).
  eapply costs_bind with (Q := fun _ _ k => k = cmp_cost max_bits true + 1).
  - unfold assert_lt_binary, lt_binary.
    kbind ltac:(apply (costs_cmp_fresh Hp) with (P := fun k => k = ONE)).
    + lia.
    + apply seq_NoDup.
    + intro Hi. apply in_seq in Hi. unfold ONE in Hi. lia.
    + apply bin_from_over.
    + intros k Hk E. apply in_seq in Hk. unfold ONE in E. lia.
    + rewrite seq_length. symmetry. apply (order_bits_len Hp). lia.
    + rewrite seq_length. lia.
    + rewrite seq_length. apply chunk_room. lia.
    + intros e N2 k2 _ ->. eapply costs_weaken; [apply costs_assert_true|]. cbv beta. intros ? ? ? _ [_ ->]. rewrite seq_length. reflexivity.
  - cbv beta. intros _ N2 k2 L2 ->. apply costs_ret. split; [reflexivity|]. unfold split_cost. lia.
Qed.

Lemma costs_cmp (Hp : prime order) N x y less strict : 0 < N -> 4 <= max_bits ->
  costs N (cmp x y less strict) (fun _ _ k => k = S max_bits + split_cost + cmp_cost max_bits strict).
Proof.
  intros HN H4. pose proof (prime_ge2 Hp) as Hord.
  assert (Fin : forall N0 a b, 0 < N0 -> 0 < a -> 0 < b -> (a + max_bits <= b \/ b + max_bits <= a) ->
    costs N0 (cmp_binary (map e_wire (seq a max_bits)) (map e_wire (seq b max_bits)) less strict) (fun _ _ k => k = cmp_cost max_bits strict)).
  { intros N0 a b H0 Ha Hb Hab. eapply costs_weaken; [apply (costs_cmp_fresh Hp) with (P := fun k => In k (seq b max_bits))|].
    - exact H0.
    - apply seq_NoDup.
    - intro Hi. apply in_seq in Hi. unfold ONE in Hi. lia.
    - apply Forall_map, Forall_forall. intros k Hk. apply over_wire. exact Hk.
    - intros k Hk Hk'. apply in_seq in Hk. apply in_seq in Hk'. lia.
    - rewrite map_length, !seq_length. reflexivity.
    - rewrite seq_length. lia.
    - rewrite seq_length. apply chunk_room. lia.
    - cbv beta. intros ? ? ? _ ->. rewrite seq_length. reflexivity. }
  unfold cmp. destruct less.
  - unfold split_allowing_ambiguity. kbind ltac:(apply (costs_swrc_seq Hord); lia). intros xb N1 k1 _ (-> & -> & ->).
    kbind ltac:(apply (costs_split Hp); lia). intros yb N2 k2 L2 (-> & _ & ->).
    eapply costs_weaken; [apply Fin; lia|]. cbv beta. intros ? ? ? _ ->. lia.
  - kbind ltac:(apply (costs_split Hp); lia). intros xb N1 k1 L1 (-> & D & ->).
    unfold split_allowing_ambiguity. kbind ltac:(apply (costs_swrc_seq Hord); lia). intros yb N2 k2 L2 (-> & -> & ->).
    eapply costs_weaken; [apply Fin; lia|]. cbv beta. intros ? ? ? _ ->. lia.
Qed.

End Cost.
