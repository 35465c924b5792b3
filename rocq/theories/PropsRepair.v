(** C81-C84: for properties that are false as first stated, what the code does on all inputs. *)
From Coq Require Import ZArith List Bool Arith Lia Znumtheory.
From Coq Require String.
From Verif Require Import Base FieldM FieldP ExprM ExprP BuilderM GadgetsM CryptoM CurveM MiscP Spec SpecCrypto SpecCurve BitsP SpongeP MatrixP
  Demo PropLib PropsCore PropsBasic PropsArith PropsCrypto PropsMix PropsDefaults PropsCost PropsCost2.
Import ListNotations.
Open Scope Z_scope.
Open Scope list_scope.

(** * C81 elements, expressions, texts *)
(** [is_prime] on every element of every field with more than four elements: 0, 1, and the primes x such that the
    square of some d <= x, reduced modulo the order, exceeds x. *)
Theorem C81_is_prime : forall (F : Field), 4 < order -> forall x fuel, 0 <= x < order -> (0 < fuel)%nat -> (Z.to_nat x <= fuel)%nat ->
  exists b, is_prime fuel x = Ok b /\
    (b = true <-> x = 0 \/ x = 1 \/ prime x /\ exists d, 2 <= d <= x /\ x < (d * d) mod order).
Proof.
  intros F H x fuel Hx Hf Hx2. destruct (Z_le_gt_dec 2 x) as [L|L].
  - destruct (C04_is_prime_partial F ltac:(lia) x fuel ltac:(lia) Hx2) as (b & E & Hb & _). exists b. split; [exact E|]. rewrite Hb.
    split; [auto|]. intros [->|[->|Q]]; [lia|lia|exact Q].
  - exists true. split; [|split; [intros _; lia|reflexivity]]. apply C04_zero_one_refuted; [exact H|lia|exact Hf].
Qed.
Print Assumptions C81_is_prime.

(** In particular it decides primality wherever squares cannot wrap around. *)
Theorem C81_is_prime_small : forall (F : Field), 4 < order -> forall x fuel, 2 <= x -> (Z.sqrt x + 1) * (Z.sqrt x + 1) < order -> (Z.to_nat x <= fuel)%nat ->
  exists b, is_prime fuel x = Ok b /\ (b = true <-> prime x).
Proof.
  intros F H x fuel Hx Hs Hf.
  assert (Hx' : x < order).
  { pose proof (Z.sqrt_spec x ltac:(lia)) as S. unfold Z.succ in S. lia. }
  destruct (C04_is_prime_partial F ltac:(lia) x fuel ltac:(lia) Hf) as (b & E & _ & N & P). exists b. split; [exact E|].
  split; [|auto]. intros ->. destruct (prime_dec x) as [Q|Q]; [exact Q|]. specialize (N Q). discriminate.
Qed.
Print Assumptions C81_is_prime_small.

(** [sum_of_wires]: every wire counts once; hence it is the sum of the list under all assignments exactly when the number
    of occurrences of every listed wire is 1 modulo the order. *)
Definition wires_sum (w : nat -> Z) (ws : list nat) : Z := fold_right (fun k s => w k + s) 0 ws.

Lemma wires_sum_count w ws (l : list nat) : NoDup l -> incl ws l -> wires_sum w ws = wires_sum (fun k => Z.of_nat (count_occ Nat.eq_dec ws k) * w k) l.
Proof.
  intros ND. revert ws. unfold wires_sum.
  assert (A : forall (f g : nat -> Z) l, fold_right (fun k s => f k + g k + s) 0 l = fold_right (fun k s => f k + s) 0 l + fold_right (fun k s => g k + s) 0 l).
  { intros f g. induction l0; cbn; lia. }
  assert (S1 : forall a (c : Z) l, NoDup l -> In a l -> fold_right (fun k s => (if Nat.eq_dec a k then c else 0) + s) 0 l = c).
  { intros a c l0 N. induction N as [|k l0 Nk N IH]; intros I; [destruct I|]. cbn [fold_right]. destruct (Nat.eq_dec a k) as [->|D].
    - assert (Z0 : fold_right (fun k0 s => (if Nat.eq_dec k k0 then c else 0) + s) 0 l0 = 0).
      { clear IH N I. induction l0 as [|j l0 IHl]; [reflexivity|]. cbn [fold_right]. destruct (Nat.eq_dec k j) as [->|]; [exfalso; apply Nk; left; reflexivity|].
        rewrite IHl; [reflexivity|]. intro; apply Nk; right; assumption. }
      rewrite Z0. lia.
    - destruct I as [->|I]; [contradiction|]. rewrite IH by exact I. lia. }
  assert (X : forall (f g : nat -> Z) l, (forall k, f k = g k) -> fold_right (fun k s => f k + s) 0 l = fold_right (fun k s => g k + s) 0 l).
  { intros f g l0 E. induction l0; cbn; [reflexivity|]. rewrite E, IHl0. reflexivity. }
  induction ws as [|a ws IH]; intro I.
  - cbn [fold_right count_occ]. clear. induction l as [|k l IH]; [reflexivity|]. cbn [fold_right]. rewrite <- IH. reflexivity.
  - cbn [fold_right]. rewrite (IH (fun k Hk => I k (or_intror Hk))).
    rewrite <- (S1 a (w a) l ND (I a (or_introl eq_refl))) at 1. rewrite <- A. apply X. intro k. cbn [count_occ].
    destruct (Nat.eq_dec a k) as [->|D]; lia.
Qed.

Lemma wires_sum_bump w ws a : NoDup ws -> wires_sum (fun k => if Nat.eq_dec k a then w k + 1 else w k) ws = wires_sum w ws + (if in_dec Nat.eq_dec a ws then 1 else 0).
Proof.
  intro N. unfold wires_sum. induction N as [|k ws Nk N IH]; [reflexivity|]. cbn [fold_right]. rewrite IH.
  destruct (Nat.eq_dec k a) as [->|D].
  - destruct (in_dec Nat.eq_dec a ws) as [I|I]; [contradiction|]. destruct (in_dec Nat.eq_dec a (a :: ws)) as [J|J]; [lia|exfalso; apply J; left; reflexivity].
  - destruct (in_dec Nat.eq_dec a ws) as [I|I], (in_dec Nat.eq_dec a (k :: ws)) as [J|J]; try lia.
    + exfalso. apply J. right. exact I.
    + destruct J as [->|J]; contradiction.
Qed.

Theorem C81_sum_of_wires : forall (F : Field), 2 <= order -> forall ws,
  (forall w, ev w (e_sum_of_wires ws) = wires_sum w (nodup Nat.eq_dec ws) mod order) /\
  ((forall w, wf_witness w -> ev w (e_sum_of_wires ws) = wires_sum w ws mod order) <->
   (forall k, In k ws -> Z.of_nat (count_occ Nat.eq_dec ws k) mod order = 1)).
Proof.
  intros F H ws. assert (E : forall w, ev w (e_sum_of_wires ws) = wires_sum w (nodup Nat.eq_dec ws) mod order) by (intro w; apply (C08_counts_once F H)).
  split; [exact E|].
  assert (Q : forall w, wires_sum w ws = wires_sum (fun k => Z.of_nat (count_occ Nat.eq_dec ws k) * w k) (nodup Nat.eq_dec ws)).
  { intro w. apply wires_sum_count; [apply NoDup_nodup|]. intros k I. apply nodup_In, I. }
  set (l := nodup Nat.eq_dec ws) in *. assert (ND : NoDup l) by apply NoDup_nodup.
  assert (IN : forall k, In k ws <-> In k l) by (intro k; unfold l; symmetry; apply nodup_In).
  set (c := fun k => Z.of_nat (count_occ Nat.eq_dec ws k)) in *.
  change (forall w, wires_sum w ws = wires_sum (fun k => c k * w k) l) in Q. split.
  - intros A k I. change ((c k) mod order = 1).
    (* the difference of two assignments that differ at k only *)
    assert (D : forall w, wires_sum (fun j => c j * (if Nat.eq_dec j k then w j + 1 else w j)) l = wires_sum (fun j => c j * w j) l + c k).
    { intro w. unfold wires_sum. apply IN in I. revert I. clear - ND. induction ND as [|j l Nj N IH]; intro I; [destruct I|]. cbn [fold_right].
      destruct (Nat.eq_dec j k) as [->|Djk].
      - assert (X : fold_right (fun j s => c j * (if Nat.eq_dec j k then w j + 1 else w j) + s) 0 l = fold_right (fun j s => c j * w j + s) 0 l).
        { clear - Nj. induction l as [|j l IHl]; [reflexivity|]. cbn [fold_right]. destruct (Nat.eq_dec j k) as [->|]; [exfalso; apply Nj; left; reflexivity|].
          rewrite IHl; [reflexivity|]. intro; apply Nj; right; assumption. }
        rewrite X. lia.
      - destruct I as [->|I]; [contradiction|]. rewrite IH by exact I. lia. }
    destruct (Nat.eq_dec k ONE) as [->|K].
    + pose (w := fun j : nat => if Nat.eq_dec j ONE then 1 else 0).
      assert (Ww : wf_witness w) by (split; [reflexivity|]; intro j; unfold w; destruct (Nat.eq_dec j ONE); lia).
      specialize (A w Ww). rewrite E, Q in A.
      assert (W0 : forall x : nat -> Z, wires_sum (fun j => x j * 0) l = 0) by (intro x; unfold wires_sum; clear; induction l; cbn; lia).
      pose proof (wires_sum_bump (fun _ => 0) l ONE ND) as B. pose proof (D (fun _ => 0)) as D'. cbv beta in B, D'. change (0 + 1) with 1 in B, D'. fold w in B.
      change (fun j => c j * (if Nat.eq_dec j ONE then 1 else 0)) with (fun j => c j * w j) in D'. rewrite W0 in D'.
      assert (B0 : wires_sum (fun _ => 0) l = 0) by (unfold wires_sum; clear; induction l as [|? ? IH]; [reflexivity|exact IH]). rewrite B0 in B.
      change (fun k => if Nat.eq_dec k ONE then 1 else 0) with w in B. rewrite B, D' in A. apply IN in I.
      destruct (in_dec Nat.eq_dec ONE l); [|contradiction]. cbn [Z.add] in A. rewrite Z.mod_small in A by lia. symmetry. exact A.
    + pose (w := fun j : nat => if Nat.eq_dec j ONE then 1 else 0). pose (w' := fun j : nat => if Nat.eq_dec j k then w j + 1 else w j).
      assert (Ww : wf_witness w) by (split; [reflexivity|]; intro j; unfold w; destruct (Nat.eq_dec j ONE); lia).
      assert (Ww' : wf_witness w').
      { split; [unfold w'; destruct (Nat.eq_dec ONE k); [congruence|reflexivity]|]. intro j. unfold w', w.
        destruct (Nat.eq_dec j k) as [Ejk|], (Nat.eq_dec j ONE) as [Ej|]; try lia. }
      pose proof (A w Ww) as A1. pose proof (A w' Ww') as A2. rewrite E, Q in A1, A2.
      pose proof (wires_sum_bump w l k ND) as B. fold w' in B. change (fun k0 => if Nat.eq_dec k0 k then w k0 + 1 else w k0) with w' in B.
      pose proof (D w) as D'. change (fun j => c j * (if Nat.eq_dec j k then w j + 1 else w j)) with (fun j => c j * w' j) in D'.
      rewrite B, D' in A2. apply IN in I. destruct (in_dec Nat.eq_dec k l); [|contradiction].
      rewrite <- (Z.mod_small 1 order) by lia.
      replace 1 with (wires_sum w l + 1 - wires_sum w l) by ring.
      replace (c k) with (wires_sum (fun j => c j * w j) l + c k - wires_sum (fun j => c j * w j) l) by ring.
      rewrite Zminus_mod, <- A2, <- A1, <- Zminus_mod. reflexivity.
  - intros A w _. rewrite E, Q. clear - A IN H. unfold wires_sum.
    assert (G : forall l, (forall k, In k l -> c k mod order = 1) ->
      fold_right (fun k s => w k + s) 0 l mod order = fold_right (fun k s => c k * w k + s) 0 l mod order).
    { induction l0 as [|k l0 IHl]; intro HA; [reflexivity|]. cbn [fold_right]. rewrite Zplus_mod, IHl by (intros; apply HA; right; assumption).
      rewrite (Zplus_mod (c k * w k)), (Zmult_mod (c k)), HA by (left; reflexivity). rewrite Z.mul_1_l, Zmod_mod. reflexivity. }
    apply G. intros k I. apply A, IN, I.
Qed.
Print Assumptions C81_sum_of_wires.

(** [product] adds nothing exactly when one operand is a constant other than 0 (i.e. has that value under every assignment);
    otherwise it adds exactly one constraint, one wire and one generator. *)
Definition nonzero_constant {F : Field} (e : expr) : Prop := exists c, c <> 0 /\ forall w, wf_witness w -> ev w e = c.

Theorem C81_product : forall (F : Field), 2 <= order -> forall x y, api_expr x -> api_expr y ->
  ((nonzero_constant x \/ nonzero_constant y) -> exists r, forall b, product x y b = Ok (r, b)) /\
  (~ nonzero_constant x -> ~ nonzero_constant y -> forall b, exists r b', product x y b = Ok (r, b') /\
     length (constraints b') = S (length (constraints b)) /\ next b' = S (next b) /\ length (generators b') = S (length (generators b))).
Proof.
  intros F H x y Ax Ay.
  assert (C : forall e, api_expr e -> (nonzero_constant e <-> exists c, e_as_constant e = Some c)).
  { intros e A. split.
    - intros (c & N & V). exists c. apply (C07_as_constant F H e c A). split; [|exact V].
      pose (w := fun j : nat => if Nat.eq_dec j ONE then 1 else 0).
      assert (Ww : wf_witness w) by (split; [reflexivity|]; intro j; unfold w; destruct (Nat.eq_dec j ONE); lia).
      pose proof (ev_infield H w e) as I. rewrite (V w Ww) in I. unfold infield in I. lia.
    - intros (c & E). apply (C07_as_constant F H e c A) in E. destruct E as [Hc V]. exists c. split; [lia|exact V]. }
  split.
  - intros N. rewrite (C x Ax), (C y Ay) in N. unfold product. destruct (e_as_constant x) as [c|]; [eexists; intro; reflexivity|].
    destruct (e_as_constant y) as [c|]; [eexists; intro; reflexivity|]. destruct N as [[c E]|[c E]]; discriminate.
  - intros Nx Ny b. rewrite (C x Ax) in Nx. rewrite (C y Ay) in Ny. unfold product.
    destruct (e_as_constant x) as [c|]; [exfalso; apply Nx; eauto|]. destruct (e_as_constant y) as [c|]; [exfalso; apply Ny; eauto|].
    eexists _, _. split; [reflexivity|]. cbn. rewrite !app_length. cbn. lia.
Qed.
Print Assumptions C81_product.

(** [join] puts the separator between the items that are left after dropping the empty items in front; so it agrees with
    the usual join exactly when the first item is not empty, or all items are empty and there is at most one, or the separator is empty. *)
Theorem C81_join : forall sep l, util_join sep l = String.concat sep (Str.drop_empty l) /\
  (util_join sep l = String.concat sep l <->
   sep = String.EmptyString \/ match l with String.EmptyString :: _ :: _ => False | _ => True end).
Proof.
  intros sep l. pose proof (C58_join_exact sep l) as E. split; [exact E|]. rewrite E. clear E.
  assert (LA : forall a b, String.length (String.append a b) = (String.length a + String.length b)%nat).
  { induction a as [|ch a IH]; intro b; [reflexivity|]. cbn. rewrite IH. reflexivity. }
  assert (LE : forall l, (String.length (String.concat sep (Str.drop_empty l)) <= String.length (String.concat sep l))%nat).
  { induction l0 as [|s l0 IH]; [reflexivity|]. destruct s; [|reflexivity]. cbn [Str.drop_empty]. etransitivity; [exact IH|].
    destruct l0 as [|s' l0]; [reflexivity|]. cbn [String.concat]. rewrite !LA. cbn [String.length]. lia. }
  split.
  - intro E. destruct l as [|[|ch s] [|s' l]]; auto. left. specialize (LE (s' :: l)).
    change (Str.drop_empty (String.EmptyString :: s' :: l)) with (Str.drop_empty (s' :: l)) in E.
    apply (f_equal String.length) in E. cbn [String.concat] in E. rewrite !LA in E. cbn [String.length] in E. cbn [String.concat] in LE. rewrite ?LA in LE.
    destruct sep; [reflexivity|]. exfalso. cbn [String.length] in *. destruct l; cbn [String.concat] in *; rewrite ?LA in *; cbn [String.length] in *; lia.
  - intros [->|M].
    + clear LE. induction l as [|s l IH]; [reflexivity|]. destruct s; [|reflexivity]. cbn [Str.drop_empty]. rewrite IH. destruct l; reflexivity.
    + destruct l as [|[|ch s] [|s' l]]; try reflexivity. contradiction.
Qed.
Print Assumptions C81_join.

Example C81_example : let F : Field := F7 in
  map (fun x => is_prime 7 x) [0; 1; 2; 3; 4; 5; 6] = [Ok true; Ok true; Ok true; Ok true; Ok false; Ok false; Ok false] /\
  ev (fun k => if (k =? 0)%nat then 1 else Z.of_nat k) (e_sum_of_wires [3; 1; 3]%nat) = 4 /\
  count_occ Nat.eq_dec [2; 2; 2; 2; 2; 2; 2; 2]%nat 2%nat = 8%nat /\
  ev (fun k => if (k =? 0)%nat then 1 else Z.of_nat k) (e_sum_of_wires [2; 2; 2; 2; 2; 2; 2; 2]%nat) = 2 /\ (8 * 2) mod 7 = 2.
Proof. vm_compute. repeat split. Qed.
Example C81_example_constant : let F : Field := F7 in nonzero_constant (e_const 3) /\ ~ nonzero_constant (e_wire 1) /\ ~ nonzero_constant e_zero.
Proof.
  intro F. assert (W : forall a, 0 <= a < 7 -> wf_witness (fun k => if (k =? 1)%nat then a else if (k =? 0)%nat then 1 else 0)).
  { intros a Ha. split; [reflexivity|]. intro k. change order with 7. destruct (k =? 1)%nat, (k =? 0)%nat; lia. }
  split; [|split].
  - exists 3. split; [lia|]. intros w [W1 _]. unfold ev. cbn. rewrite W1. reflexivity.
  - intros (c & N & V). pose proof (V _ (W 0 ltac:(lia))) as V0. vm_compute in V0. congruence.
  - intros (c & N & V). pose proof (V _ (W 0 ltac:(lia))) as V0. vm_compute in V0. congruence.
Qed.

(** * C82 binary words *)
(** The width of a sum of two words, for all operands. *)
Theorem C82_sum_width : forall (F : Field) x y b r b', binary_sum x y b = Ok (r, b') ->
  length r = if ((length x =? 0) || (length y =? 0))%nat then Nat.max (length x) (length y) else S (Nat.max (length x) (length y)).
Proof.
  intros F x y b r b' E. destruct (Nat.eqb_spec (length x) 0) as [Lx|Lx]; cbn [orb].
  - rewrite (C30_sum_width_empty_refuted F y x b r b' Lx (or_intror E)). rewrite Lx. reflexivity.
  - destruct (Nat.eqb_spec (length y) 0) as [Ly|Ly]; cbn [orb].
    + rewrite (C30_sum_width_empty_refuted F x y b r b' Ly (or_introl E)). rewrite Ly. symmetry. apply Nat.max_0_r.
    + apply (C30_sum_width_partial F x y b r b'); [lia|lia|exact E].
Qed.
Print Assumptions C82_sum_width.

(** [shift_dec] for all words and distances: it succeeds exactly when the word is at least n bits long or has no bits at all. *)
Theorem C82_shift_dec : forall (F : Field), prime order -> forall x n,
  ((n <= length x)%nat \/ x = [] ->
     exists r, (forall b, shift_dec x n b = Ok (r, b)) /\ length r = length x /\
       forall w, wf_witness w -> bin_ok w x -> bin_ok w r /\ bin_val w r = bin_val w x / 2 ^ Z.of_nat n) /\
  (~ ((n <= length x)%nat \/ x = []) -> forall b, shift_dec x n b = Panic).
Proof.
  intros F Hp x n. split.
  - intros [L| ->]; [apply C33_shift_dec_partial; assumption|]. exists []. split; [intro; reflexivity|]. split; [reflexivity|].
    intros w _ _. split; [constructor|]. unfold bin_val. cbn. symmetry. change 0 with (0 / 2 ^ Z.of_nat n) at 1 || idtac. rewrite Z.div_0_l; [reflexivity|]. pose proof (pow2_pos n). lia.
  - intros N b. assert (L : (length x < n)%nat) by (destruct (le_lt_dec n (length x)) as [L|L]; [exfalso; apply N; left; exact L|exact L]).
    apply (C33_shift_dec_panics_refuted F x n b L). intro E. apply N. right. exact E.
Qed.
Print Assumptions C82_shift_dec.

(** [join_allowing_overflow] succeeds exactly on at most [max_bits] bits. *)
Theorem C82_join_allowing_overflow : forall (F : Field), prime order -> 2 < order -> forall x,
  ((length x <= max_bits)%nat -> exists e, bin_join_allowing_overflow x = Ok e /\ forall w, ev w e = bin_val w x mod order) /\
  ((max_bits < length x)%nat -> bin_join_allowing_overflow x = Panic).
Proof.
  intros F Hp H x. split; [apply C35_join_allowing_overflow_partial, Hp|apply C35_join_allowing_overflow_panics_refuted, H].
Qed.
Print Assumptions C82_join_allowing_overflow.

Example C82_example : let F : Field := F257 in
  demo [1; 1] (binary_sum [e_wire 1; e_wire 2] []) (fun r => r) = Ok (true, [1; 1]) /\
  demo [1; 1] (binary_sum [e_wire 1; e_wire 2] [e_one]) (fun r => r) = Ok (true, [0; 0; 1]) /\
  demo [] (shift_dec [] 4) (fun r => r) = Ok (true, []) /\
  demo [1; 0; 1] (shift_dec [e_wire 1; e_wire 2; e_wire 3] 3) (fun r => r) = Ok (true, [0; 0; 0]).
Proof. vm_compute. repeat split. Qed.

(** * C83 components of hash functions *)
(** The padded blocks, written out: they are the blocks of the input followed by zeros up to the next multiple of r. *)
Lemma blocks_shape r : (0 < r)%nat -> forall fuel l, (length l <= fuel)%nat ->
  exists k, concat (blocks_fuel fuel r l) = l ++ repeat 0 k /\ (k < r)%nat /\ Forall (fun b => length b = r) (blocks_fuel fuel r l).
Proof.
  intro R. induction fuel as [|f IH]; intros l L.
  - destruct l; [|cbn in L; lia]. exists 0%nat. repeat split; [lia|constructor].
  - destruct l as [|x l]; [exists 0%nat; repeat split; [lia|constructor]|]. cbn [blocks_fuel concat]. set (m := x :: l) in *.
    destruct (le_lt_dec r (length m)) as [G|G].
    + destruct (IH (skipn r m)) as (k & E & K & A); [rewrite skipn_length; lia|]. exists k.
      replace (r - length m)%nat with 0%nat by lia. cbn [repeat]. rewrite app_nil_r, E, app_assoc, firstn_skipn. split; [reflexivity|]. split; [exact K|].
      constructor; [rewrite firstn_length; lia|exact A].
    + exists (r - length m)%nat. rewrite (firstn_all2 m), (skipn_all2 m) by lia.
      replace (blocks_fuel f r []) with (@nil (list Z)) by (destruct f; reflexivity). cbn [concat]. rewrite app_nil_r. split; [reflexivity|].
      split; [assert (length m <> 0%nat) by discriminate; lia|]. constructor; [rewrite app_length, repeat_length; lia|constructor].
Qed.

Lemma concat_blocks_inj r (l1 l2 : list (list Z)) : (0 < r)%nat -> Forall (fun b => length b = r) l1 -> Forall (fun b => length b = r) l2 ->
  concat l1 = concat l2 -> l1 = l2.
Proof.
  intros R A1. revert l2. induction A1 as [|b1 l1 L1 A1 IH]; intros l2 A2 E.
  - destruct A2 as [|b2 l2 L2 A2]; [reflexivity|]. destruct b2; [cbn in L2; lia|discriminate].
  - destruct A2 as [|b2 l2 L2 A2]; [destruct b1; [cbn in L1; lia|discriminate]|]. cbn [concat] in E.
    assert (Q : b1 = b2 /\ concat l1 = concat l2).
    { assert (LL : length b1 = length b2) by congruence. revert LL E. generalize (concat l1) as u, (concat l2) as v. clear. revert b2.
      induction b1 as [|a b1 IH]; intros [|c b2] u v LL E; try discriminate; [auto|]. injection E as -> E. injection LL as LL.
      destruct (IH b2 u v LL E) as [-> ->]. auto. }
    destruct Q as [-> Q]. f_equal. apply IH; assumption.
Qed.

Lemma app_zeros_nth (l1 l2 : list Z) k1 k2 : l1 ++ repeat 0 k1 = l2 ++ repeat 0 k2 <->
  (length l1 + k1 = length l2 + k2)%nat /\ forall i, nth i l1 0 = nth i l2 0.
Proof.
  assert (N : forall (l : list Z) k i, nth i (l ++ repeat 0 k) 0 = nth i l 0).
  { intros l k i. destruct (le_lt_dec (length l) i) as [G|G]; [|apply app_nth1, G]. rewrite app_nth2, (nth_overflow l) by lia. apply nth_repeat. }
  split.
  - intro E. split.
    + apply (f_equal (@length Z)) in E. rewrite !app_length, !repeat_length in E. exact E.
    + intro i. rewrite <- (N l1 k1), <- (N l2 k2), E. reflexivity.
  - intros [L E]. apply nth_ext with (d := 0) (d' := 0); [rewrite !app_length, !repeat_length; exact L|]. intros i _. rewrite !N. apply E.
Qed.

(** Two inputs are absorbed as the same blocks exactly when they fill the same number of blocks and agree up to zeros at the end. *)
Theorem C83_padding : forall r l1 l2, (0 < r)%nat ->
  (padded_blocks r l1 = padded_blocks r l2 <->
   ((length l1 + (r - 1)) / r = (length l2 + (r - 1)) / r)%nat /\ forall i, nth i l1 0 = nth i l2 0).
Proof.
  intros r l1 l2 R. unfold padded_blocks.
  destruct (blocks_shape r R (length l1) l1 ltac:(lia)) as (k1 & E1 & K1 & A1).
  destruct (blocks_shape r R (length l2) l2 ltac:(lia)) as (k2 & E2 & K2 & A2).
  assert (LC : forall bs : list (list Z), Forall (fun b => length b = r) bs -> length (concat bs) = (length bs * r)%nat).
  { induction 1 as [|b bs L _ IH]; [reflexivity|]. cbn [concat length]. rewrite app_length, IH, L. cbn. reflexivity. }
  assert (Q : forall (l : list Z) k bs, Forall (fun b => length b = r) bs -> concat bs = l ++ repeat 0 k -> (k < r)%nat ->
    ((length l + (r - 1)) / r)%nat = length bs /\ (length l + k = length bs * r)%nat).
  { intros l k bs A E K. pose proof (LC bs A) as L. rewrite E, app_length, repeat_length in L. split; [|exact L].
    symmetry. apply (Nat.div_unique _ _ _ (r - 1 - k)); lia. }
  destruct (Q _ _ _ A1 E1 K1) as [D1 S1]. destruct (Q _ _ _ A2 E2 K2) as [D2 S2]. rewrite D1, D2. split.
  - intro E. split; [rewrite E; reflexivity|]. apply (app_zeros_nth l1 l2 k1 k2). rewrite <- E1, <- E2, E. reflexivity.
  - intros [L E]. apply (concat_blocks_inj r); auto. rewrite E1, E2. apply app_zeros_nth. split; [rewrite S1, S2, L; reflexivity|exact E].
Qed.
Print Assumptions C83_padding.

(** So all such inputs have the same outputs, for every permutation, bitrate, capacity and output length, in every satisfying assignment. *)
Theorem C83_sponge_collisions : forall (F : Field), prime order -> forall s p in1 in2 n,
  computesl (mp_permute (sp_perm s)) (bitrate s + capacity s) p -> (0 < bitrate s)%nat ->
  forall b1 o1 b1' w1 b2 o2 b2' w2,
  sponge_evaluate s in1 n b1 = Ok (o1, b1') -> wf_witness w1 -> sat w1 b1' ->
  sponge_evaluate s in2 n b2 = Ok (o2, b2') -> wf_witness w2 -> sat w2 b2' ->
  ((length in1 + (bitrate s - 1)) / bitrate s = (length in2 + (bitrate s - 1)) / bitrate s)%nat ->
  (forall i, nth i (map (ev w1) in1) 0 = nth i (map (ev w2) in2) 0) ->
  map (ev w1) o1 = map (ev w2) o2.
Proof.
  intros F Hp s p in1 in2 n H R b1 o1 b1' w1 b2 o2 b2' w2 E1 W1 S1 E2 W2 S2 L E.
  destruct (C47_value F Hp s p in1 n H b1 o1 b1' w1 E1 W1 S1) as [_ V1]. destruct (C47_value F Hp s p in2 n H b2 o2 b2' w2 E2 W2 S2) as [_ V2].
  rewrite V1, V2. unfold sponge_fun, absorb_all. do 2 f_equal.
  enough (Q : padded_blocks (bitrate s) (map (ev w1) in1) = padded_blocks (bitrate s) (map (ev w2) in2)) by (rewrite Q; reflexivity).
  apply C83_padding; [exact R|]. rewrite !map_length. split; [exact L|exact E].
Qed.
Print Assumptions C83_sponge_collisions.

(** Monomial permutations for every exponent below the order. *)
Theorem C83_monomial : forall (F : Field), prime order -> 2 < order -> forall n, 1 <= n < order ->
  (monomial_new n = Ok n <-> permutes (fun x => (x ^ n) mod order)) /\
  (monomial_new n = Panic <-> ~ permutes (fun x => (x ^ n) mod order)) /\
  (monomial_new n = Ok n -> forall vals x, good_inputs vals -> on_inputs vals x ->
     runs vals (permute (monomial n) x) (fun r v => e_evaluate v r = Ok ((wv vals x ^ n) mod order)) /\
     (n = 1 -> forall b, p_inverse (monomial n) x b = Panic) /\
     (n <> 1 -> runs vals (y <- permute (monomial n) x ;; p_inverse (monomial n) y) (fun r v => e_evaluate v r = Ok (wv vals x)))).
Proof.
  intros F Hp H2 n Hn. destruct (C42_new_exact F Hp n Hn) as [A B]. split; [exact A|]. split; [exact B|].
  intros E vals x Hv Hx. rewrite (C42_new F Hp n ltac:(lia)) in E. destruct (Z.eqb_spec (Z.gcd n (order - 1)) 1) as [G|G]; [|discriminate].
  split; [|split].
  - apply C14_exponentiation_complete; auto. lia.
  - intros -> b. apply (C42_inverse_of_one_panics_refuted F Hp H2).
  - intro N. apply (C42_runs_partial F Hp n vals x); auto. lia.
Qed.
Print Assumptions C83_monomial.

(** The matrix product is right on all vectors exactly for diagonal matrices. *)
Lemma row_diagonal {F : Field} (H : 0 < order) row v i : length row = length v -> (i < length row)%nat ->
  (forall j, (j < length row)%nat -> j <> i -> (nth j row 0) mod order = 0) ->
  row_sum (map (fun xy => fst xy * snd xy) (combine row v)) mod order = (nth i v 0 * row_sum row) mod order.
Proof.
  assert (Z0 : forall row v, length row = length v -> (forall j, (j < length row)%nat -> (nth j row 0) mod order = 0) ->
    row_sum (map (fun xy => fst xy * snd xy) (combine row v)) mod order = 0 /\ row_sum row mod order = 0).
  { clear row v i. induction row as [|a row IH]; intros [|c v] L A; try discriminate; [split; apply Z.mod_0_l; lia|].
    injection L as L. destruct (IH v L) as [Q1 Q2]; [intros j Hj; apply (A (S j)); cbn; lia|]. pose proof (A 0%nat ltac:(cbn; lia)) as A0. cbn in A0.
    unfold row_sum in *. cbn [combine map fold_right fst snd]. split.
    - rewrite Zplus_mod, Q1, Zmult_mod, A0, Z.mul_0_l, !Z.mod_0_l by lia. reflexivity.
    - rewrite Zplus_mod, Q2, A0. apply Z.mod_0_l. lia. }
  revert v i. induction row as [|a row IH]; intros [|c v] i L Hi A; cbn [length] in *; try lia. injection L as L.
  unfold row_sum in *. cbn [combine map fold_right fst snd]. destruct i as [|i].
  - destruct (Z0 row v L) as [Q1 Q2]; [intros j Hj; apply (A (S j)); lia|]. cbn [nth]. rewrite Zplus_mod, Q1, Z.add_0_r, Zmod_mod.
    rewrite (Zmult_mod c), (Zplus_mod a), Q2, Z.add_0_r, Zmod_mod, <- Zmult_mod. f_equal. ring.
  - cbn [nth]. pose proof (A 0%nat ltac:(lia) ltac:(lia)) as A0. cbn in A0.
    rewrite Zplus_mod, IH with (i := i); [|exact L|lia|intros j Hj N; apply (A (S j)); lia].
    rewrite (Zmult_mod a), A0, Z.mul_0_l, Z.mod_0_l, Z.add_0_l, Zmod_mod by lia.
    rewrite (Zmult_mod _ (a + _)), (Zplus_mod a), A0, Z.add_0_l, Zmod_mod, <- Zmult_mod. reflexivity.
Qed.

Theorem C83_matrix : forall (F : Field), prime order -> forall rows n, length rows = n -> Forall (fun row => length row = n) rows ->
  (forall v, Forall (fun x => 0 <= x < order) v -> matrix_mul_elements rows v = row_scale rows v) /\
  ((forall v, length v = n -> Forall (fun x => 0 <= x < order) v -> matrix_mul_elements rows v = mat_vec rows v) <->
   (forall i j, (i < n)%nat -> (j < n)%nat -> i <> j -> (nth j (nth i rows []) 0) mod order = 0)).
Proof.
  intros F Hp rows n L R. split; [intros v; apply C48_value_partial, Hp|]. split; [apply C48_only_diagonal_refuted; assumption|].
  intros D v Lv Hv. rewrite (C48_value_partial F Hp rows v Hv). pose proof (prime_ge2 Hp) as H2.
  apply nth_error_ext. intro i. unfold row_scale, mat_vec. rewrite !nth_error_map.
  destruct (le_lt_dec n i) as [G|G].
  - rewrite (proj2 (nth_error_None (combine rows v) i)) by (rewrite combine_length; lia). rewrite (proj2 (nth_error_None rows i)) by lia. reflexivity.
  - rewrite (nth_error_nth' rows (n := i) []) by lia. rewrite (nth_error_nth' (combine rows v) (n := i) ([], 0)) by (rewrite combine_length; lia).
    rewrite combine_nth by lia. cbn [option_map fst snd]. f_equal. symmetry. rewrite Forall_forall in R.
    assert (Lr : length (nth i rows []) = n) by (apply R, nth_In; lia).
    apply row_diagonal; [lia|lia|lia|]. intros j Hj N. apply D; [lia|lia|congruence].
Qed.
Print Assumptions C83_matrix.

(** Poseidon and Rescue on one lane: apply the S-boxes of the lane and multiply by the sum of its row, round by round. *)
Definition poseidon_lane_fun {F : Field} (f : Z -> Z) (full part : nat) (row : list Z) (i : nat) (x : Z) : Z :=
  fold_left (fun y r => ((if full_round full part r || (i =? 0)%nat then f y else y) * row_sum row) mod order) (seq 0 (full + part)) x.
Definition rescue_lane_fun {F : Field} (f g : Z -> Z) (rounds : nat) (row : list Z) (x : Z) : Z :=
  fold_left (fun y _ => (g ((f y * row_sum row) mod order) * row_sum row) mod order) (seq 0 rounds) x.

Theorem C83_lanes : forall (F : Field) f g full part rounds mds l i row x, length l = length mds ->
  nth_error mds i = Some row -> nth_error l i = Some x ->
  nth_error (poseidon_fun f full part mds l) i = Some (poseidon_lane_fun f full part row i x) /\
  nth_error (rescue_fun f g rounds mds l) i = Some (rescue_lane_fun f g rounds row x).
Proof.
  intros F f g full part rounds mds l i row x L Hr Hx.
  assert (RS : forall l x, nth_error l i = Some x -> nth_error (row_scale mds l) i = Some ((x * row_sum row) mod order)).
  { intros l0 x0 H0. rewrite row_scale_nth, Hr, H0. reflexivity. }
  split.
  - unfold poseidon_fun, poseidon_lane_fun. revert l x L Hx. generalize (seq 0 (full + part)) as rs. induction rs as [|r rs IH]; intros l x L Hx; [exact Hx|].
    cbn [fold_left]. apply IH.
    + rewrite row_scale_length. destruct (full_round full part r); [rewrite map_length|rewrite on_first_length]; lia.
    + apply RS. destruct (full_round full part r); cbn [orb].
      * rewrite nth_error_map, Hx. reflexivity.
      * destruct l as [|a l]; [destruct i; discriminate|]. destruct i as [|i]; cbn in Hx |- *; [injection Hx as ->; reflexivity|exact Hx].
  - unfold rescue_fun, rescue_lane_fun. revert l x L Hx. generalize (seq 0 rounds) as rs. induction rs as [|r rs IH]; intros l x L Hx; [exact Hx|].
    cbn [fold_left]. apply IH.
    + rewrite !row_scale_length, !map_length, row_scale_length, map_length. lia.
    + apply RS. rewrite nth_error_map, (RS (map f l) (f x)); [reflexivity|]. rewrite nth_error_map, Hx. reflexivity.
Qed.
Print Assumptions C83_lanes.

Example C83_example : let F : Field := F97 in
  padded_blocks 3 [1; 2; 3; 4] = padded_blocks 3 [1; 2; 3; 4; 0] /\ padded_blocks 3 [1; 2; 0] <> padded_blocks 3 [1; 2; 0; 0] /\
  matrix_mul_elements [[2; 0]; [0; 5]] [7; 8] = mat_vec [[2; 0]; [0; 5]] [7; 8] /\
  nth_error (poseidon_fun (fun a => (a ^ 5) mod 97) 2 3 [[2; 1; 1]; [1; 2; 1]; [1; 1; 3]] [5; 6; 7]) 2 =
    Some (poseidon_lane_fun (fun a => (a ^ 5) mod 97) 2 3 [1; 1; 3] 2 7) /\
  poseidon_lane_fun (fun a => (a ^ 5) mod 97) 2 3 [1; 1; 3] 2 7 = 73.
Proof. vm_compute. repeat split. discriminate. Qed.
