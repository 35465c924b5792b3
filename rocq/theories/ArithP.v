(** Facts connecting the arithmetic gadgets with the vocabulary of their statements. *)
From Coq Require Import ZArith List Bool Arith Lia Znumtheory.
From Verif Require Import Base FieldM FieldP ExprM BuilderM GadgetsM Spec ExprP BitsP SoundP CmpP GadgetSoundP HonestP
  CompleteP CmpCompleteP GadgetCompleteP BinUtilP PropLib.
Import ListNotations.
Open Scope Z_scope.

Lemma runs_weaken {F : Field} {A} vals (m : B A) (R R' : A -> values -> Prop) : runs vals m R ->
  (forall r v, R r v -> R' r v) -> runs vals m R'.
Proof.
  intros H HR v0 Hv. destruct (H v0 Hv) as (ws & b0 & r & b' & v & E1 & E2 & E3 & K & Hr).
  exists ws, b0, r, b', v. split; [exact E1|]. split; [exact E2|]. split; [exact E3|]. split; [exact K|auto].
Qed.

Lemma bbind_ok {A C} (m : B A) (k : A -> B C) b c b' : bbind m k b = Ok (c, b') ->
  exists a b1, m b = Ok (a, b1) /\ k a b1 = Ok (c, b').
Proof. unfold bbind. destruct (m b) as [[a b1]| |]; try discriminate. eauto. Qed.

Lemma bmap_length {A C} (f : A -> B C) l : forall b r b', bmap f l b = Ok (r, b') -> length r = length l.
Proof.
  induction l as [|a l IH]; intros b r b' E; cbn [bmap] in E.
  - injection E as <- _. reflexivity.
  - apply bbind_ok in E as (c & b1 & _ & E). apply bbind_ok in E as (cs & b2 & E2 & E). injection E as <- _.
    cbn [length]. f_equal. eauto.
Qed.

Lemma nth_skipn {A} n : forall (l : list A) i d, nth i (skipn n l) d = nth (n + i) l d.
Proof. induction n as [|n IH]; intros [|a l] i d; try reflexivity; [destruct i; reflexivity|]. apply IH. Qed.
Lemma nth_firstn_lt {A} n : forall (l : list A) i d, (i < n)%nat -> nth i (firstn n l) d = nth i l d.
Proof.
  induction n as [|n IH]; intros [|a l] [|i] d H; try reflexivity; try lia. cbn [firstn nth]. apply IH. lia.
Qed.

Section Arith.
Context {F : Field}.

Lemma sum_vals_total w ts : sum_vals w ts = fold_right Z.add 0 (map (bin_val w) ts).
Proof. induction ts as [|t ts IH]; [reflexivity|]. cbn [map fold_right sum_vals]. rewrite <- IH. reflexivity. Qed.

Lemma max_len_longest (ts : list binexpr) : max_len ts = list_max (map (@length _) ts).
Proof.
  unfold max_len.
  assert (G : forall ts m, fold_left (fun m (t : binexpr) => Nat.max m (length t)) ts m = Nat.max m (list_max (map (@length _) ts))).
  { clear. induction ts as [|t ts IH]; intro m; cbn [fold_left map list_max]; [rewrite Nat.max_0_r; reflexivity|].
    rewrite IH. change (list_max (length t :: map (@length _) ts)) with (Nat.max (length t) (list_max (map (@length _) ts))).
    rewrite Nat.max_assoc. reflexivity. }
  rewrite G. reflexivity.
Qed.

Lemma max_sum_width (ts : list binexpr) :
  max_sum ts = fold_right Z.add 0 (map (fun t : binexpr => 2 ^ Z.of_nat (length t) - 1) ts).
Proof.
  unfold max_sum. rewrite max_sum_acc. cbn [Z.add]. induction ts as [|t ts IH]; [reflexivity|]. cbn [map fold_right]. lia.
Qed.

Lemma zbl_val_mod A n : 0 <= A -> bits_val (zbl A n) = A mod 2 ^ Z.of_nat n.
Proof. intro H. apply bits_val_testbit, H. Qed.

Lemma binary_summation_length (ts : list binexpr) b r b' : binary_summation ts b = Ok (r, b') -> length r = zbits (max_sum ts).
Proof.
  intro E. unfold binary_summation in E. cbv zeta in E.
  apply bbind_ok in E as (? & ? & _ & E). apply bbind_ok in E as (ws & b1 & E1 & E).
  apply bbind_ok in E as (? & ? & _ & E). apply bbind_ok in E as (? & ? & _ & E). apply bbind_ok in E as (? & ? & _ & E).
  apply bbind_ok in E as (? & ? & _ & E). unfold bret in E. injection E as <- _.
  unfold bin_of_wires. rewrite map_length.
  unfold binary_wire in E1. rewrite (bmap_length _ _ _ _ _ E1). apply seq_length.
Qed.

Lemma zbits_unique z n : 2 ^ Z.of_nat n <= z < 2 ^ Z.of_nat (S n) -> zbits z = S n.
Proof.
  intros [A B]. pose proof (zbits_lower z n A). pose proof (pow2_pos n). pose proof (zbits_min z (S n)). lia.
Qed.

Lemma zbits_ones n : zbits (2 ^ Z.of_nat n - 1) = n.
Proof.
  destruct n as [|n]; [reflexivity|]. apply zbits_unique. rewrite pow2_S. pose proof (pow2_pos n). lia.
Qed.

Lemma sum2_width a b : (0 < a)%nat -> (0 < b)%nat ->
  zbits (2 ^ Z.of_nat a - 1 + (2 ^ Z.of_nat b - 1 + 0)) = S (Nat.max a b).
Proof.
  intros Ha Hb. apply zbits_unique. rewrite pow2_S.
  pose proof (pow2_le a (Nat.max a b) ltac:(lia)). pose proof (pow2_le b (Nat.max a b) ltac:(lia)).
  pose proof (pow2_le 1 a Ha). pose proof (pow2_le 1 b Hb). change (2 ^ Z.of_nat 1) with 2 in *.
  destruct (Nat.max_dec a b) as [E|E]; rewrite E in *; lia.
Qed.

Lemma bits_val_ones n : bits_val (repeat 1 n) = 2 ^ Z.of_nat n - 1.
Proof. induction n as [|n IH]; [reflexivity|]. cbn [repeat bits_val]. rewrite IH, pow2_S. ring. Qed.

Lemma bits_val_compl l : bits_val (map (fun b => 1 - b) l) = 2 ^ Z.of_nat (length l) - 1 - bits_val l.
Proof.
  induction l as [|b l IH]; [reflexivity|]. cbn [map bits_val length]. rewrite IH, pow2_S. ring.
Qed.

Lemma runs_bitwise (Hp : prime order) vals op (f g : Z -> Z -> Z) bop x y :
  good_inputs vals -> on_inputs_all vals x -> on_inputs_all vals y ->
  bin_ok (input_witness vals) x -> bin_ok (input_witness vals) y -> length x = length y ->
  (forall D P s x y a b, has s x a -> has s y b -> is_bit a -> is_bit b -> comp D P s (op x y) (done P (fun r s' => has s' r (f a b)))) ->
  (forall a b, f (b2z a) (b2z b) = b2z (bop a b)) -> (forall a b, 0 <= a -> 0 <= b -> 0 <= g a b) -> (forall a b n, Z.testbit (g a b) n = bop (Z.testbit a n) (Z.testbit b n)) ->
  runs vals (bitwise2 op x y) (fun r v => bin_evaluate v r = Ok (g (bin_val (input_witness vals) x) (bin_val (input_witness vals) y))).
Proof.
  intros Hv Hx Hy Bx By L Hop Hf Hnn Hg.
  assert (Bx' : Forall is_bit (map (ev (input_witness vals)) x)) by (apply Forall_map; exact Bx).
  assert (By' : Forall is_bit (map (ev (input_witness vals)) y)) by (apply Forall_map; exact By).
  eapply runs_weaken; [eapply (to_runs_bin Hp) with (Q := fun _ => True); [exact Hv| |eapply cmpl_bitwise2 with (f := f); [intros s1 x1 y1 a1 b1 Q1 Q2 Q3 Q4; exact (Hop _ _ _ _ _ _ _ Q1 Q2 Q3 Q4)|apply hasl_input; exact Hx|apply hasl_input; exact Hy|exact Bx'|exact By'|exact L]|auto]|].
  - apply Forall_map, Forall_forall. intros [a b] Hi. pose proof (in_combine_l _ _ _ _ Hi) as Ia. pose proof (in_combine_r _ _ _ _ Hi) as Ib.
    rewrite Forall_forall in Bx', By'. apply Bx' in Ia. apply By' in Ib. cbn [fst snd].
    assert (Ea : exists u, a = b2z u) by (destruct Ia as [->| ->]; [exists false|exists true]; reflexivity).
    assert (Eb : exists u, b = b2z u) by (destruct Ib as [->| ->]; [exists false|exists true]; reflexivity).
    destruct Ea as [u ->], Eb as [u' ->]. rewrite Hf. destruct (bop u u'); [right|left]; reflexivity.
  - cbv beta. intros r v [_ E]. rewrite E. f_equal. unfold bin_val.
    apply bits_val_zop with (f := f) (bop := bop); auto. rewrite !map_length. exact L.
Qed.

(** ** rotations *)
Lemma rotate_inc_nth x n : exists r, (forall b, rotate_inc x n b = Ok (r, b)) /\ length r = length x /\
  forall i d, (i < length x)%nat -> nth ((i + n) mod length x) r d = nth i x d.
Proof.
  eexists. split; [intro b; apply rotate_inc_list|]. cbv zeta.
  destruct x as [|e0 x0]; [split; [reflexivity|simpl; lia]|]. set (x := e0 :: x0). assert (Hl : (0 < length x)%nat) by (simpl; lia). clearbody x.
  set (l := length x) in *. pose proof (Nat.mod_upper_bound n l ltac:(lia)) as Hk. 
  split; [rewrite app_length, skipn_length, firstn_length; fold l; lia|].
  intros i d Hi. rewrite <- Nat.add_mod_idemp_r by lia. set (k := (n mod l)%nat) in *. clearbody k.
  assert (Ls : length (skipn (l - k) x) = k) by (rewrite skipn_length; fold l; lia).
  destruct (le_lt_dec l (i + k)) as [C|C].
  - assert (Em : ((i + k) mod l = i + k - l)%nat).
    { symmetry. apply Nat.mod_unique with (q := 1%nat); lia. }
    rewrite Em, app_nth1 by lia. rewrite nth_skipn. f_equal. lia.
  - rewrite Nat.mod_small by exact C. rewrite app_nth2 by lia. rewrite Ls, nth_firstn_lt by lia. f_equal. lia.
Qed.

Lemma rotate_dec_nth x n : exists r, (forall b, rotate_dec x n b = Ok (r, b)) /\ length r = length x /\
  forall i d, (i < length x)%nat -> nth i r d = nth ((i + n) mod length x) x d.
Proof.
  eexists. split; [intro b; apply rotate_dec_list|]. cbv zeta.
  destruct x as [|e0 x0]; [simpl; rewrite skipn_nil, firstn_nil; split; [reflexivity|lia]|]. set (x := e0 :: x0). assert (Hl : (0 < length x)%nat) by (simpl; lia). clearbody x.
  set (l := length x) in *. pose proof (Nat.mod_upper_bound n l ltac:(lia)) as Hk. 
  split; [rewrite app_length, skipn_length, firstn_length; fold l; lia|].
  intros i d Hi. rewrite <- Nat.add_mod_idemp_r by lia. set (k := (n mod l)%nat) in *. clearbody k.
  assert (Ls : length (skipn k x) = (l - k)%nat) by (rewrite skipn_length; reflexivity).
  destruct (le_lt_dec l (i + k)) as [C|C].
  - assert (Em : ((i + k) mod l = i + k - l)%nat).
    { symmetry. apply Nat.mod_unique with (q := 1%nat); lia. }
    rewrite Em, app_nth2 by lia. rewrite Ls, nth_firstn_lt by lia. f_equal. lia.
  - rewrite Nat.mod_small by exact C. rewrite app_nth1 by lia. rewrite nth_skipn. f_equal. lia.
Qed.

Lemma rotate_inverse x n b :
  (r <- rotate_inc x n ;; rotate_dec r n) b = Ok (x, b) /\ (r <- rotate_dec x n ;; rotate_inc r n) b = Ok (x, b).
Proof.
  destruct x as [|e0 x0]; [split; reflexivity|]. set (x := e0 :: x0). assert (Hl : (0 < length x)%nat) by (simpl; lia). clearbody x.
  pose proof (Nat.mod_upper_bound n (length x) ltac:(lia)) as Hk.
  split; unfold bbind.
  - rewrite rotate_inc_list. cbv zeta. set (l := length x) in *. set (k := (n mod l)%nat) in *.
    rewrite rotate_dec_list. cbv zeta. rewrite app_length, skipn_length, firstn_length. fold l.
    replace (l - (l - k) + Nat.min (l - k) l)%nat with l by lia. fold k.
    assert (Ls : length (skipn (l - k) x) = k) by (rewrite skipn_length; fold l; lia).
    rewrite skipn_app, firstn_app, Ls, Nat.sub_diag, skipn_O, firstn_O, app_nil_r, (skipn_all2 (skipn (l - k) x)), (firstn_all2 (skipn (l - k) x)) by lia.
    cbn [app]. rewrite firstn_skipn. reflexivity.
  - rewrite rotate_dec_list. cbv zeta. set (l := length x) in *. set (k := (n mod l)%nat) in *.
    rewrite rotate_inc_list. cbv zeta. rewrite app_length, skipn_length, firstn_length. fold l.
    replace (l - k + Nat.min k l)%nat with l by lia. fold k.
    assert (Ls : length (skipn k x) = (l - k)%nat) by (rewrite skipn_length; reflexivity).
    rewrite skipn_app, firstn_app, Ls, Nat.sub_diag, skipn_O, firstn_O, app_nil_r, (skipn_all2 (skipn k x)), (firstn_all2 (skipn k x)) by lia.
    cbn [app]. rewrite firstn_skipn. reflexivity.
Qed.

(** ** shifts *)
Lemma shift_inc_val (Hp : prime order) x n : exists r, (forall b, shift_inc x n b = Ok (r, b)) /\
  length r = length x /\ forall w, wf_witness w -> bin_ok w x ->
    bin_ok w r /\ bin_val w r = (bin_val w x * 2 ^ Z.of_nat n) mod 2 ^ Z.of_nat (length x).
Proof.
  eexists. split; [intro b; apply shift_inc_list|]. split; [rewrite app_length, repeat_length, firstn_length; lia|].
  intros w Hw Hb. destruct (bin_val_zeros (prime_ge2 Hp) w (Nat.min n (length x)) (proj1 Hw)) as [A B].
  split; [apply Forall_app; split; [exact A|apply bin_ok_firstn, Hb]|].
  rewrite bin_val_app, B, repeat_length. 
  pose proof (bin_split_val w x (length x - n) Hb ltac:(lia)) as [E _]. rewrite E.
  pose proof (pow2_pos n) as Pn. pose proof (pow2_pos (length x - n)) as Pl.
  destruct (le_lt_dec n (length x)) as [L|L].
  - rewrite Nat.min_l by exact L. replace (length x) with (n + (length x - n))%nat at 2 by lia.
    rewrite pow2_add. rewrite (Z.mul_comm (bin_val w x)), Z.mul_mod_distr_l by lia. ring.
  - rewrite Nat.min_r by lia. replace (length x - n)%nat with 0%nat by lia. change (2 ^ Z.of_nat 0) with 1. rewrite Z.mod_1_r.
    replace n with ((n - length x) + length x)%nat by lia. rewrite pow2_add, Z.mul_assoc, Z.mod_mul by (pose proof (pow2_pos (length x)); lia). ring.
Qed.

Lemma shift_dec_val (Hp : prime order) x n : (n <= length x)%nat -> exists r, (forall b, shift_dec x n b = Ok (r, b)) /\
  length r = length x /\ forall w, wf_witness w -> bin_ok w x ->
    bin_ok w r /\ bin_val w r = bin_val w x / 2 ^ Z.of_nat n.
Proof.
  intro L. eexists. split; [intro b; apply shift_dec_list, L|]. split; [rewrite app_length, repeat_length, skipn_length; lia|].
  intros w Hw Hb. destruct (bin_val_zeros (prime_ge2 Hp) w n (proj1 Hw)) as [A B].
  split; [apply Forall_app; split; [apply bin_ok_skipn, Hb|exact A]|].
  rewrite bin_val_app, B. destruct (bin_split_val w x n Hb L) as [_ ->]. ring.
Qed.

Lemma random_access_empty i b : random_access [] i b = Panic.
Proof.
  unfold random_access, split_bounded, bbind at 1. destruct (oassert _) as [u| |] eqn:E; [reflexivity|reflexivity|].
  unfold oassert in E. destruct (_ <? _)%nat; discriminate.
Qed.

End Arith.
