(** Bits, binary values and the width of the field. *)
From Coq Require Import ZArith List Bool Arith Lia Znumtheory Setoid Morphisms.
From Verif Require Import Base FieldM FieldP ExprM BuilderM Spec ExprP.
Import ListNotations.
Open Scope Z_scope.

Lemma pow2_pos n : 0 < 2 ^ Z.of_nat n.
Proof. apply Z.pow_pos_nonneg; lia. Qed.

Lemma pow2_S n : 2 ^ Z.of_nat (S n) = 2 * 2 ^ Z.of_nat n.
Proof. rewrite Nat2Z.inj_succ, Z.pow_succ_r by lia. reflexivity. Qed.

Lemma pow2_add a b : 2 ^ Z.of_nat (a + b) = 2 ^ Z.of_nat a * 2 ^ Z.of_nat b.
Proof. rewrite Nat2Z.inj_add, Z.pow_add_r by lia. reflexivity. Qed.

Lemma pow2_le a b : (a <= b)%nat -> 2 ^ Z.of_nat a <= 2 ^ Z.of_nat b.
Proof. intro. apply Z.pow_le_mono_r; lia. Qed.

Lemma pow2_lt a b : (a < b)%nat -> 2 ^ Z.of_nat a < 2 ^ Z.of_nat b.
Proof. intro. apply Z.pow_lt_mono_r; lia. Qed.

Lemma pow2_gt n : Z.of_nat n < 2 ^ Z.of_nat n.
Proof. apply Z.pow_gt_lin_r; lia. Qed.

Lemma zbits_spec z : 0 <= z -> z < 2 ^ Z.of_nat (zbits z).
Proof.
  intro H. unfold zbits. destruct (Z.leb_spec z 0).
  - simpl. lia.
  - rewrite Nat2Z.inj_succ, Z2Nat.id by apply Z.log2_nonneg.
    apply Z.log2_spec. lia.
Qed.

Lemma zbits_min z n : 0 <= z < 2 ^ Z.of_nat n -> (zbits z <= n)%nat.
Proof.
  intro H. unfold zbits. destruct (Z.leb_spec z 0); [lia|].
  assert (Z.log2 z < Z.of_nat n) by (apply Z.log2_lt_pow2; lia).
  pose proof (Z.log2_nonneg z). lia.
Qed.

Lemma zbits_le_iff z n : 0 <= z -> (zbits z <= n)%nat <-> z < 2 ^ Z.of_nat n.
Proof.
  intro H. split; intro L.
  - pose proof (zbits_spec z H). pose proof (pow2_le _ _ L). lia.
  - apply zbits_min. lia.
Qed.

Lemma zbits_lower z n : 2 ^ Z.of_nat n <= z -> (n < zbits z)%nat.
Proof.
  intro H. pose proof (pow2_pos n).
  destruct (le_lt_dec (zbits z) n) as [L|]; auto.
  apply zbits_le_iff in L; lia.
Qed.

Lemma zbits_pos z : 0 < z -> 2 ^ Z.of_nat (zbits z - 1) <= z.
Proof.
  intro H. unfold zbits. destruct (Z.leb_spec z 0); [lia|].
  replace (S (Z.to_nat (Z.log2 z)) - 1)%nat with (Z.to_nat (Z.log2 z)) by lia.
  rewrite Z2Nat.id by apply Z.log2_nonneg. apply Z.log2_spec. lia.
Qed.

(** ** bits_val *)

Lemma bits_val_app a b : bits_val (a ++ b) = bits_val a + 2 ^ Z.of_nat (length a) * bits_val b.
Proof.
  induction a as [|x a IH].
  - cbn [app length bits_val]. change (2 ^ Z.of_nat 0) with 1. ring.
  - change ((x :: a) ++ b) with (x :: (a ++ b)). cbn [bits_val length].
    rewrite IH, pow2_S. ring.
Qed.

Lemma bits_val_bound l : Forall is_bit l -> 0 <= bits_val l < 2 ^ Z.of_nat (length l).
Proof.
  induction 1 as [|b l Hb _ IH].
  - simpl. lia.
  - cbn [bits_val length]. rewrite pow2_S. destruct Hb; subst; lia.
Qed.

Lemma bits_val_testbit n : forall z, 0 <= z -> 
  bits_val (map (fun i => b2z (zbit z i)) (seq 0 n)) = z mod 2 ^ Z.of_nat n.
Proof.
  induction n as [|n IH]; intros z Hz.
  - simpl. rewrite Z.mod_1_r. reflexivity.
  - rewrite seq_S, map_app, bits_val_app, IH, map_length, seq_length by assumption.
    cbn [map bits_val plus]. rewrite pow2_S.
    assert (E : z mod (2 * 2 ^ Z.of_nat n) = z mod 2 ^ Z.of_nat n
                + 2 ^ Z.of_nat n * ((z / 2 ^ Z.of_nat n) mod 2)).
    { rewrite Z.mul_comm. pose proof (pow2_pos n). rewrite Z.rem_mul_r by lia. reflexivity. }
    rewrite E. f_equal. f_equal. unfold zbit.
    rewrite <- Z.testbit_spec' by lia. rewrite Z.mul_0_r, Z.add_0_r.
    destruct (Z.testbit z (Z.of_nat n)); reflexivity.
Qed.

Lemma bits_val_inj a : forall b, length a = length b -> Forall is_bit a -> Forall is_bit b ->
  bits_val a = bits_val b -> a = b.
Proof.
  induction a as [|x a IH]; intros [|y b] L Ha Hb E; try discriminate; auto.
  inversion Ha as [|? ? Hx Ha']; inversion Hb as [|? ? Hy Hb']; subst. cbn [bits_val] in E.
  assert (x = y /\ bits_val a = bits_val b) as [-> E'].
  { destruct Hx, Hy; subst; lia. }
  f_equal. apply IH; auto.
Qed.

(** ** Field width *)

Section Width.
Context {F : Field} (Hord : 2 <= order).

Lemma max_bits_pos : (1 <= max_bits)%nat.
Proof using Hord.
  unfold max_bits, el_bits, largest_element, zbits. destruct (Z.leb_spec (order - 1) 0); lia.
Qed.

Lemma max_bits_lower : 2 ^ Z.of_nat (max_bits - 1) < order.
Proof using Hord.
  assert (H : 2 ^ Z.of_nat (max_bits - 1) <= order - 1).
  { apply zbits_pos. unfold largest_element. lia. }
  lia.
Qed.

Lemma max_bits_upper : order <= 2 ^ Z.of_nat max_bits.
Proof using Hord.
  pose proof (zbits_spec largest_element). unfold max_bits, el_bits.
  unfold largest_element in *. lia.
Qed.

Lemma pow2_lt_order n : (n < max_bits)%nat -> 2 ^ Z.of_nat n < order.
Proof using Hord.
  intro H. pose proof max_bits_lower. pose proof (pow2_le n (max_bits - 1)). lia.
Qed.

Lemma pow2_double : 2 ^ Z.of_nat max_bits < 2 * order.
Proof using Hord.
  pose proof max_bits_lower. pose proof max_bits_pos.
  replace max_bits with (S (max_bits - 1)) at 1 by lia. rewrite pow2_S. lia.
Qed.

Lemma pow2_order_width n : 2 ^ Z.of_nat n <= order -> (n <= max_bits)%nat.
Proof using Hord.
  intro H. destruct (le_lt_dec n max_bits); auto.
  pose proof (pow2_lt max_bits n l). pose proof max_bits_upper. lia.
Qed.

Lemma infield_bits x : infield x -> (el_bits x <= max_bits)%nat.
Proof using Hord.
  unfold infield, el_bits. intro H. apply zbits_min. pose proof max_bits_upper. lia.
Qed.

Lemma bits_odd : (2 <= max_bits)%nat -> 2 < order.
Proof using Hord.
  intro H. pose proof max_bits_lower. pose proof (pow2_le 1 (max_bits - 1) ltac:(lia)). change (2 ^ Z.of_nat 1) with 2 in *. lia.
Qed.

(** ** join *)

Lemma enumerate_app {A} (l : list A) x : enumerate (l ++ [x]) = enumerate l ++ [(length l, x)].
Proof.
  unfold enumerate. rewrite app_length. simpl. rewrite Nat.add_1_r, seq_S. simpl.
  assert (G : forall (l : list A) s, combine (seq s (length l) ++ [(s + length l)%nat]) (l ++ [x])
                 = combine (seq s (length l)) l ++ [((s + length l)%nat, x)]).
  { clear. induction l as [|a l IH]; intro s; simpl.
    - rewrite Nat.add_0_r. reflexivity.
    - f_equal. replace (s + S (length l))%nat with (S s + length l)%nat by lia. apply IH. }
  apply (G l 0%nat).
Qed.

Lemma ofold_app {A S} (f : S -> A -> outcome S) l l' s :
  ofold f (l ++ l') s = let! s' := ofold f l s in ofold f l' s'.
Proof.
  revert s. induction l as [|a l IH]; intro s; simpl; auto.
  destruct (f s a); simpl; auto.
Qed.

Lemma join_gen x : (length x <= max_bits)%nat ->
  exists e, bin_join_allowing_overflow x = Ok e /\
            (forall w, ev w e = (bits_val (map (ev w) x)) mod order) /\
            (forall P, Forall (over P) x -> over P e).
Proof using Hord.
  unfold bin_join_allowing_overflow.
  induction x as [|b x IH] using rev_ind; intro L.
  - exists e_zero. split; [reflexivity|]. split.
    + intro w. rewrite ev_zero by apply Hord. reflexivity.
    + intros. apply over_zero.
  - rewrite app_length in L. simpl in L.
    destruct IH as (e & H1 & H2 & H3); [lia|].
    rewrite enumerate_app, ofold_app, H1. simpl.
    assert (E : fshl fone (length x) = Ok (2 ^ Z.of_nat (length x))).
    { unfold fshl, fone. rewrite Z.mul_1_l. apply el_from_ok. split; [pose proof (pow2_pos (length x)); lia|].
      apply pow2_lt_order. lia. }
    rewrite E. simpl. eexists. split; [reflexivity|]. split.
    + intro w. rewrite ev_add, ev_scale, H2 by apply Hord.
      rewrite map_app, bits_val_app, map_length. cbn [map bits_val]. unfold fadd, fmul.
      rewrite Zplus_mod_idemp_l, Zplus_mod_idemp_r. f_equal. ring.
    + intros P Hf. apply Forall_app in Hf. destruct Hf as [Ha Hb]. inversion Hb; subst.
      apply over_add; auto. apply over_scale. assumption.
Qed.

Lemma join_overflow_panics x : (max_bits < length x)%nat -> 2 < order ->
  bin_join_allowing_overflow x = Panic.
Proof using Hord.
  intros L H2. rewrite <- (firstn_skipn max_bits x).
  assert (Lf : length (firstn max_bits x) = max_bits) by (rewrite firstn_length; lia).
  assert (Ls : skipn max_bits x <> []).
  { intro E. assert (length (skipn max_bits x) = 0%nat) by (rewrite E; reflexivity).
    rewrite skipn_length in H. lia. }
  destruct (skipn max_bits x) as [|b r] eqn:Er; [contradiction|].
  replace (firstn max_bits x ++ b :: r) with ((firstn max_bits x ++ [b]) ++ r)
    by (rewrite <- app_assoc; reflexivity).
  set (u := firstn max_bits x) in *.
  unfold bin_join_allowing_overflow.
  assert (G : forall r l, exists t, @enumerate (list (nat*Z)) (l ++ r) = enumerate l ++ t).
  { clear. induction r as [|a r IH]; intro l.
    - exists []. rewrite !app_nil_r. reflexivity.
    - destruct (IH (l ++ [a])) as [t Ht]. exists ((length l, a) :: t).
      replace (l ++ a :: r) with ((l ++ [a]) ++ r) by (rewrite <- app_assoc; reflexivity).
      rewrite Ht, enumerate_app, <- app_assoc. reflexivity. }
  destruct (G r (u ++ [b])) as [t Ht]. rewrite Ht, enumerate_app, <- app_assoc, ofold_app.
  destruct (join_gen u) as (e & He & _); [lia|]. unfold bin_join_allowing_overflow in He.
  rewrite He. simpl. rewrite Lf.
  assert (E : fshl fone max_bits = Panic).
  { unfold fshl, fone, el_from. rewrite Z.mul_1_l.
    pose proof max_bits_upper. destruct (Z.ltb_spec (2 ^ Z.of_nat max_bits) order); [lia|reflexivity]. }
  rewrite E. reflexivity.
Qed.

Lemma join_inv x e : bin_join_allowing_overflow x = Ok e -> 2 < order ->
  forall w, ev w e = (bin_val w x) mod order.
Proof using Hord.
  intros H H2. destruct (le_lt_dec (length x) max_bits) as [L|L].
  - destruct (join_gen x L) as (e' & H' & Hv & _). rewrite H in H'. inversion H'; subst. exact Hv.
  - rewrite join_overflow_panics in H by assumption. discriminate.
Qed.

Lemma bin_join_inv x e : bin_join x = Ok e ->
  2 ^ Z.of_nat (length x) <= order /\ (length x <= max_bits)%nat /\
  (forall w, ev w e = (bin_val w x) mod order) /\ (forall P, Forall (over P) x -> over P e).
Proof using Hord.
  unfold bin_join, oassert. destruct (Z.leb_spec (2 ^ Z.of_nat (length x)) order); simpl; [|discriminate].
  intro E. assert (L : (length x <= max_bits)%nat) by (apply pow2_order_width; assumption).
  destruct (join_gen x L) as (e' & H' & Hv & Ho). rewrite E in H'. inversion H'; subst. auto.
Qed.

Lemma bin_join_ok x : 2 ^ Z.of_nat (length x) <= order -> exists e, bin_join x = Ok e.
Proof using Hord.
  intro H. unfold bin_join. destruct (Z.leb_spec (2 ^ Z.of_nat (length x)) order); [|lia]. simpl.
  destruct (join_gen x) as (e & He & _); [apply pow2_order_width; assumption|]. exists e. exact He.
Qed.

End Width.

Lemma max_bits_odd {F : Field} : (4 <= max_bits)%nat -> 2 < order.
Proof.
  intro H. destruct (Z.le_gt_cases 2 order) as [L|L]; [apply (bits_odd L); lia|].
  exfalso. unfold max_bits, el_bits, largest_element, zbits in H. destruct (Z.leb_spec (order - 1) 0); lia.
Qed.

Lemma bin_val_bound {F : Field} w x : bin_ok w x -> 0 <= bin_val w x < 2 ^ Z.of_nat (length x).
Proof.
  unfold bin_ok, bin_val. intro H. rewrite <- (map_length (ev w) x). apply bits_val_bound.
  rewrite Forall_map. exact H.
Qed.

Lemma bin_val_app {F : Field} w x y :
  bin_val w (x ++ y) = bin_val w x + 2 ^ Z.of_nat (length x) * bin_val w y.
Proof. unfold bin_val. rewrite map_app, bits_val_app, map_length. reflexivity. Qed.

Lemma bin_from_val {F : Field} (H : 2 <= order) w z : w ONE = 1 -> 0 <= z ->
  bin_ok w (bin_from z) /\ bin_val w (bin_from z) = z /\ length (bin_from z) = zbits z.
Proof.
  intros H1 Hz. unfold bin_from. split; [|split].
  - unfold bin_ok. rewrite Forall_map. apply Forall_forall. intros i _.
    rewrite ev_bool by assumption. destruct (zbit z i); [right|left]; reflexivity.
  - unfold bin_val. rewrite map_map.
    erewrite map_ext; [|intro i; apply ev_bool; assumption].
    rewrite bits_val_testbit by assumption. apply Z.mod_small.
    pose proof (zbits_spec z Hz). lia.
  - rewrite map_length, seq_length. reflexivity.
Qed.
