(** Rotations, shifts and the utilities on binary expressions. *)
From Coq Require Import ZArith List Bool Arith Lia Znumtheory.
From Verif Require Import Base FieldM FieldP ExprM BuilderM GadgetsM Spec ExprP BitsP CmpP GadgetSoundP.
Import ListNotations.
Open Scope Z_scope.

(** ** pure builder maps *)
Lemma bmap_pure {A C} (f : A -> B C) (g : A -> C) l b :
  (forall a, In a l -> forall b, f a b = Ok (g a, b)) -> bmap f l b = Ok (map g l, b).
Proof.
  induction l as [|a l IH]; intro H; cbn [bmap map]; [reflexivity|].
  unfold bbind at 1. rewrite H by (left; reflexivity). unfold bbind. rewrite IH; [reflexivity|].
  intros; apply H; right; assumption.
Qed.

Lemma bmap_panic {A C} (f : A -> B C) l b :
  l <> [] -> (forall a, In a l -> forall b, f a b = Panic) -> bmap f l b = Panic.
Proof.
  destruct l as [|a l]; intros Hn H; [contradiction|]. cbn [bmap]. unfold bbind. rewrite H by (left; reflexivity). reflexivity.
Qed.

Lemma oindex_ok {A} (l : list A) i d : (i < length l)%nat -> oindex l i = Ok (nth i l d).
Proof. intro H. unfold oindex. rewrite (nth_error_nth' _ d) by exact H. reflexivity. Qed.

Lemma map_seq_nth {A} (f : nat -> A) (l : list A) d : (forall i, (i < length l)%nat -> f i = nth i l d) ->
  map f (seq 0 (length l)) = l.
Proof.
  intro H. rewrite <- (combine_seq_nth l d) at 2. apply map_ext_in. intros i Hi. apply in_seq in Hi. apply H. lia.
Qed.

Section Util.
Context {F : Field}.

(** ** the lists rotations and shifts produce *)
Lemma rotate_inc_list x n b : rotate_inc x n b =
  Ok (let k := (n mod length x)%nat in skipn (length x - k) x ++ firstn (length x - k) x, b).
Proof.
  unfold rotate_inc. cbv zeta. destruct x as [|e0 x0]; [reflexivity|]. set (x := e0 :: x0).
  assert (Hl : (0 < length x)%nat) by (simpl; lia). clearbody x.
  set (l := length x) in *. pose proof (Nat.mod_upper_bound n l ltac:(lia)) as Hk. set (k := (n mod l)%nat) in *. clearbody k.
  assert (EL : length (skipn (l - k) x ++ firstn (l - k) x) = l).
  { rewrite app_length, skipn_length, firstn_length. fold l. lia. }
  rewrite bmap_pure with (g := fun i => nth ((l + i - k) mod l) x []).
  - do 2 f_equal. match type of EL with length ?R = _ => replace (seq 0 l) with (seq 0 (length R)) by (rewrite EL; reflexivity) end. apply map_seq_nth with (d := []). rewrite EL. intros i Hi.
    destruct (lt_dec i k).
    + rewrite app_nth1 by (rewrite skipn_length; fold l; lia).
      rewrite Nat.mod_small by lia. rewrite <- (firstn_skipn (l - k) x) at 1.
      rewrite app_nth2; rewrite firstn_length; fold l; [f_equal; lia|lia].
    + rewrite app_nth2; rewrite skipn_length; fold l; [|lia].
      replace (l + i - k)%nat with ((i - k) + 1 * l)%nat by lia. rewrite Nat.mod_add, Nat.mod_small by lia.
      rewrite <- (firstn_skipn (l - k) x) at 1. rewrite app_nth1 by (rewrite firstn_length; fold l; lia). f_equal; lia.
  - intros i Hi b0. apply in_seq in Hi. unfold bbind, blift, osub.
    destruct (Nat.leb_spec k (l + i)); [|lia]. simpl.
    rewrite (oindex_ok x _ []); [reflexivity|]. apply Nat.mod_upper_bound. lia.
Qed.

Lemma rotate_dec_list x n b : rotate_dec x n b =
  Ok (let k := (n mod length x)%nat in skipn k x ++ firstn k x, b).
Proof.
  unfold rotate_dec. cbv zeta. destruct x as [|e0 x0]; [simpl; rewrite skipn_nil, firstn_nil; reflexivity|]. set (x := e0 :: x0).
  assert (Hl : (0 < length x)%nat) by (simpl; lia). clearbody x.
  set (l := length x) in *. pose proof (Nat.mod_upper_bound n l ltac:(lia)) as Hk.
  assert (EL : length (skipn (n mod l) x ++ firstn (n mod l) x) = l).
  { rewrite app_length, skipn_length, firstn_length. fold l. lia. }
  rewrite bmap_pure with (g := fun i => nth ((i + n) mod l) x []).
  - do 2 f_equal. match type of EL with length ?R = _ => replace (seq 0 l) with (seq 0 (length R)) by (rewrite EL; reflexivity) end. apply map_seq_nth with (d := []). rewrite EL. intros i Hi.
    rewrite <- Nat.add_mod_idemp_r by lia. set (k := (n mod l)%nat) in *. clearbody k.
    destruct (lt_dec i (l - k)).
    + rewrite app_nth1 by (rewrite skipn_length; fold l; lia).
      rewrite Nat.mod_small by lia. rewrite <- (firstn_skipn k x) at 1.
      rewrite app_nth2; rewrite firstn_length; fold l; [f_equal; lia|lia].
    + rewrite app_nth2; rewrite skipn_length; fold l; [|lia].
      replace (i + k)%nat with ((i + k - l) + 1 * l)%nat by lia. rewrite Nat.mod_add, Nat.mod_small by lia.
      rewrite <- (firstn_skipn k x) at 1. rewrite app_nth1 by (rewrite firstn_length; fold l; lia). f_equal; lia.
  - intros i Hi b0. unfold blift. rewrite (oindex_ok x _ []); [reflexivity|]. apply Nat.mod_upper_bound. lia.
Qed.

Lemma shift_inc_list x n b : shift_inc x n b =
  Ok (repeat (e_bool false) (Nat.min n (length x)) ++ firstn (length x - n) x, b).
Proof.
  unfold shift_inc. set (l := length x).
  assert (EL : length (repeat (e_bool false) (Nat.min n l) ++ firstn (l - n) x) = l).
  { rewrite app_length, repeat_length, firstn_length. fold l. lia. }
  rewrite bmap_pure with (g := fun i => if (i <? n)%nat then e_bool false else nth (i - n) x []).
  - do 2 f_equal. match type of EL with length ?R = _ => replace (seq 0 l) with (seq 0 (length R)) by (rewrite EL; reflexivity) end. apply map_seq_nth with (d := []). rewrite EL. intros i Hi.
    destruct (Nat.ltb_spec i n).
    + rewrite app_nth1 by (rewrite repeat_length; lia). rewrite (nth_indep _ [] (e_bool false)) by (rewrite repeat_length; lia).
      symmetry. apply nth_repeat.
    + rewrite app_nth2; rewrite repeat_length; [|lia]. rewrite Nat.min_l by lia.
      rewrite <- (firstn_skipn (l - n) x) at 1. apply app_nth1. rewrite firstn_length. fold l. lia.
  - intros i Hi b0. apply in_seq in Hi. destruct (Nat.ltb_spec i n); [reflexivity|].
    unfold blift. rewrite (oindex_ok x _ []); [reflexivity|]. fold l. lia.
Qed.

Lemma shift_dec_list x n b : (n <= length x)%nat -> shift_dec x n b =
  Ok (skipn n x ++ repeat (e_bool false) n, b).
Proof.
  intro Hn. unfold shift_dec. set (l := length x) in *. cbv zeta.
  assert (EL : length (skipn n x ++ repeat (e_bool false) n) = l).
  { rewrite app_length, repeat_length, skipn_length. fold l. lia. }
  rewrite bmap_pure with (g := fun i => if (i <? l - n)%nat then nth (i + n) x [] else e_bool false).
  - do 2 f_equal. match type of EL with length ?R = _ => replace (seq 0 l) with (seq 0 (length R)) by (rewrite EL; reflexivity) end. apply map_seq_nth with (d := []). rewrite EL. intros i Hi.
    destruct (Nat.ltb_spec i (l - n)).
    + rewrite app_nth1 by (rewrite skipn_length; fold l; lia).
      rewrite <- (firstn_skipn n x) at 1. rewrite app_nth2; rewrite firstn_length; fold l; [f_equal; lia|lia].
    + rewrite app_nth2; rewrite skipn_length; fold l; [|lia].
      rewrite (nth_indep _ [] (e_bool false)) by (rewrite repeat_length; lia). symmetry. apply nth_repeat.
  - intros i Hi b0. apply in_seq in Hi. unfold bbind, blift, osub. destruct (Nat.leb_spec n l); [|lia]. simpl.
    destruct (Nat.ltb_spec i (l - n)); [|reflexivity].
    rewrite (oindex_ok x _ []); [reflexivity|]. fold l. lia.
Qed.

Lemma shift_dec_panics x n b : (length x < n)%nat -> x <> [] -> shift_dec x n b = Panic.
Proof.
  intros Hn Hx. unfold shift_dec. apply bmap_panic.
  - destruct x; [contradiction|discriminate].
  - intros i _ b0. unfold bbind, blift, osub. destruct (Nat.leb_spec n (length x)); [lia|reflexivity].
Qed.

(** ** their values *)
Lemma bin_ok_firstn w x n : bin_ok w x -> bin_ok w (firstn n x).
Proof. intro H. unfold bin_ok in *. rewrite <- (firstn_skipn n x) in H. apply Forall_app in H. tauto. Qed.
Lemma bin_ok_skipn w x n : bin_ok w x -> bin_ok w (skipn n x).
Proof. intro H. unfold bin_ok in *. rewrite <- (firstn_skipn n x) in H. apply Forall_app in H. tauto. Qed.

Lemma bin_split_val w x n : bin_ok w x -> (n <= length x)%nat ->
  bin_val w (firstn n x) = bin_val w x mod 2 ^ Z.of_nat n /\ bin_val w (skipn n x) = bin_val w x / 2 ^ Z.of_nat n.
Proof.
  intros H Hn. assert (E : bin_val w x = bin_val w (firstn n x) + 2 ^ Z.of_nat n * bin_val w (skipn n x)).
  { rewrite <- (firstn_skipn n x) at 1. rewrite bin_val_app, firstn_length, Nat.min_l by exact Hn. reflexivity. }
  pose proof (bin_val_bound w _ (bin_ok_firstn w x n H)) as Bd. rewrite firstn_length, Nat.min_l in Bd by exact Hn.
  split.
  - apply Z.mod_unique with (q := bin_val w (skipn n x)); [left; exact Bd|]. rewrite E at 1. ring.
  - apply Z.div_unique with (r := bin_val w (firstn n x)); [left; exact Bd|]. rewrite E at 1. ring.
Qed.

Lemma bin_val_zeros (Hord : 2 <= order) w n : w ONE = 1 -> bin_ok w (repeat (e_bool false) n) /\ bin_val w (repeat (e_bool false) n) = 0.
Proof.
  intro H1. assert (E : ev w (e_bool false) = 0) by (rewrite ev_bool by assumption; reflexivity).
  split.
  - apply Forall_forall. intros e He. apply repeat_spec in He. subst. rewrite E. left. reflexivity.
  - apply all_zero_val. apply Forall_forall. intros e He. apply repeat_spec in He. subst. exact E.
Qed.

(** ** chunks *)
Lemma chunks_fuel_concat {A} c : (0 < c)%nat -> forall fuel (l : list A), (length l <= fuel)%nat ->
  concat (chunks_fuel fuel c l) = l.
Proof.
  intros Hc. induction fuel as [|fuel IH]; intros l Hl.
  - destruct l; [reflexivity|simpl in Hl; lia].
  - destruct l as [|a l']; [reflexivity|]. set (l := a :: l') in *.
    change (chunks_fuel (S fuel) c l) with (firstn c l :: chunks_fuel fuel c (skipn c l)). cbn [concat].
    rewrite IH, firstn_skipn; [reflexivity|]. rewrite skipn_length. assert (0 < length l)%nat by (simpl; lia). lia.
Qed.

Lemma chunks_fuel_nth {A} c : (0 < c)%nat -> forall fuel (l : list A) i, (length l <= fuel)%nat ->
  nth i (chunks_fuel fuel c l) [] = firstn c (skipn (i * c) l).
Proof.
  intros Hc. induction fuel as [|fuel IH]; intros l i Hl.
  - destruct l; [|simpl in Hl; lia]. rewrite skipn_nil, firstn_nil. destruct i; reflexivity.
  - destruct l as [|a l']; [rewrite skipn_nil, firstn_nil; destruct i; reflexivity|]. set (l := a :: l') in *.
    change (chunks_fuel (S fuel) c l) with (firstn c l :: chunks_fuel fuel c (skipn c l)).
    destruct i as [|i]; [reflexivity|]. cbn [nth]. rewrite IH; [|rewrite skipn_length; assert (0 < length l)%nat by (simpl; lia); lia].
    f_equal. change (S i * c)%nat with (c + i * c)%nat.
    generalize (i * c)%nat. clearbody l. clear. intro n. revert l. induction c as [|c IHc]; intro l; [reflexivity|].
    destruct l as [|a l]; [rewrite !skipn_nil; reflexivity|]. simpl. apply IHc.
Qed.

Lemma bin_val_firstn_ge w x n : (length x <= n)%nat -> bin_val w (firstn n x) = bin_val w x.
Proof. intro H. rewrite firstn_all2 by exact H. reflexivity. Qed.

Lemma chunk_digit w x c i : bin_ok w x ->
  bin_val w (firstn c (skipn (i * c) x)) = (bin_val w x / 2 ^ Z.of_nat (i * c)) mod 2 ^ Z.of_nat c.
Proof.
  intro H. pose proof (bin_val_bound w x H) as Bx.
  destruct (le_lt_dec (length x) (i * c)) as [L|L].
  - rewrite skipn_all2, firstn_nil by exact L. change (bin_val w []) with 0.
    pose proof (pow2_le _ _ L). rewrite Z.div_small, Z.mod_0_l by (pose proof (pow2_pos c); lia). reflexivity.
  - destruct (bin_split_val w x (i * c) H ltac:(lia)) as [_ E]. rewrite <- E.
    pose proof (bin_ok_skipn w x (i * c) H) as Hs.
    destruct (le_lt_dec (length (skipn (i * c) x)) c) as [L2|L2].
    + rewrite firstn_all2 by exact L2. symmetry. apply Z.mod_small.
      pose proof (bin_val_bound w _ Hs). pose proof (pow2_le _ _ L2). lia.
    + apply (bin_split_val w _ c Hs). lia.
Qed.

(** concatenation *)
Lemma bin_val_concat w xs : bin_val w (concat xs)
  = fold_right (fun x s => bin_val w x + 2 ^ Z.of_nat (length x) * s) 0 xs.
Proof.
  induction xs as [|x xs IH]; [reflexivity|]. cbn [concat fold_right]. rewrite bin_val_app, IH. reflexivity.
Qed.

Lemma bin_join_panics x : order < 2 ^ Z.of_nat (length x) -> bin_join x = Panic.
Proof.
  intro H. unfold bin_join. destruct (Z.leb_spec (2 ^ Z.of_nat (length x)) order); [lia|reflexivity].
Qed.

End Util.
