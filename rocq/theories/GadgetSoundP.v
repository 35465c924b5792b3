(** Soundness of the remaining gadgets of comparisons.rs, splitting.rs, field_arithmetic.rs,
    binary_arithmetic.rs, bitwise_operations.rs and random_access.rs. *)
From Coq Require Import ZArith List Bool Arith Lia Znumtheory.
From Verif Require Import Base FieldM FieldP ExprM BuilderM GadgetsM Spec ExprP BitsP MonoP SoundP CmpP.
Import ListNotations.
Open Scope Z_scope.

Lemma Forall2_length {A C} (R : A -> C -> Prop) l r : Forall2 R l r -> length l = length r.
Proof. induction 1; simpl; congruence. Qed.

Section Snd.
Context {F : Field} (Hp : prime order) (w : witness) (Hw : wf_witness w).

Let Hord : 2 <= order := prime_ge2 Hp.

(** ** comparisons of binary expressions *)
Lemma cmp_result_bit less strict X Y r : cmp_result less strict X Y r -> is_bit r.
Proof using. unfold is_bit. intros [->|[-> _]]; destruct strict; simpl; auto. Qed.

Lemma snd_lt_binary x y : bin_ok w x -> bin_ok w y -> sound w (lt_binary x y)
  (fun r => length x = length y /\ is_bit (ev w r) /\ (ev w r = 1 -> bin_val w x < bin_val w y)).
Proof using Hp Hw.
  intros Hx Hy. eapply sound_weaken; [apply (snd_cmp_binary Hp w Hw); assumption|]. cbv beta.
  intros r (L & _ & H). split; [exact L|]. split; [eapply cmp_result_bit; exact H|].
  intro E. destruct H as [H|[_ H]]; [simpl in H; lia|exact H].
Qed.

Lemma snd_gt_binary x y : bin_ok w x -> bin_ok w y -> sound w (gt_binary x y)
  (fun r => length x = length y /\ is_bit (ev w r) /\ (ev w r = 1 -> bin_val w y < bin_val w x)).
Proof using Hp Hw.
  intros Hx Hy. eapply sound_weaken; [apply (snd_cmp_binary Hp w Hw); assumption|]. cbv beta.
  intros r (L & _ & H). split; [exact L|]. split; [eapply cmp_result_bit; exact H|].
  intro E. destruct H as [H|[_ H]]; [simpl in H; lia|exact H].
Qed.

Lemma snd_le_binary x y : bin_ok w x -> bin_ok w y -> sound w (le_binary x y)
  (fun r => length x = length y /\ is_bit (ev w r) /\ (ev w r = 0 -> bin_val w y < bin_val w x)).
Proof using Hp Hw.
  intros Hx Hy. eapply sound_weaken; [apply (snd_cmp_binary Hp w Hw); assumption|]. cbv beta.
  intros r (L & _ & H). split; [exact L|]. split; [eapply cmp_result_bit; exact H|].
  intro E. destruct H as [H|[_ H]]; [simpl in H; lia|exact H].
Qed.

Lemma snd_ge_binary x y : bin_ok w x -> bin_ok w y -> sound w (ge_binary x y)
  (fun r => length x = length y /\ is_bit (ev w r) /\ (ev w r = 0 -> bin_val w x < bin_val w y)).
Proof using Hp Hw.
  intros Hx Hy. eapply sound_weaken; [apply (snd_cmp_binary Hp w Hw); assumption|]. cbv beta.
  intros r (L & _ & H). split; [exact L|]. split; [eapply cmp_result_bit; exact H|].
  intro E. destruct H as [H|[_ H]]; [simpl in H; lia|exact H].
Qed.

Lemma snd_assert_lt_binary x y : bin_ok w x -> bin_ok w y ->
  sound w (assert_lt_binary x y) (fun _ => length x = length y /\ bin_val w x < bin_val w y).
Proof using Hp Hw.
  intros Hx Hy. unfold assert_lt_binary. sbind (apply snd_lt_binary; assumption).
  intros r (L & _ & H). eapply sound_weaken; [apply (snd_assert_true Hp w Hw)|]. cbv beta. auto.
Qed.

Lemma snd_assert_gt_binary x y : bin_ok w x -> bin_ok w y ->
  sound w (assert_gt_binary x y) (fun _ => length x = length y /\ bin_val w y < bin_val w x).
Proof using Hp Hw.
  intros Hx Hy. unfold assert_gt_binary. sbind (apply snd_gt_binary; assumption).
  intros r (L & _ & H). eapply sound_weaken; [apply (snd_assert_true Hp w Hw)|]. cbv beta. auto.
Qed.

(** ** canonical splitting *)
Lemma snd_split x : sound w (split x)
  (fun r => length r = max_bits /\ bin_ok w r /\ bin_val w r = ev w x).
Proof using Hp Hw.
  unfold split. sbind (apply (snd_split_amb Hp w Hw)). intros r (L & Hb & Hv).
  assert (H0 : 0 <= order) by (pose proof Hord; lia).
  destruct (bin_from_val Hord w order (proj1 Hw) H0) as (Ho & Vo & Lo).
  sbind (apply snd_assert_lt_binary; assumption). intros _ [_ Hlt]. apply sound_ret.
  rewrite Vo in Hlt. pose proof (evi Hp w x). unfold infield in *. repeat split; auto.
  destruct Hv; lia.
Qed.

(** ** comparisons of field elements *)
Lemma snd_lt x y : sound w (lt x y)
  (fun r => is_bit (ev w r) /\ (ev w r = 1 -> ev w x < ev w y)).
Proof using Hp Hw.
  unfold lt, cmp. sbind (apply (snd_split_amb Hp w Hw)). intros xb (Lx & Hbx & Hvx).
  sbind (apply snd_split). intros yb (Ly & Hby & Hvy).
  eapply sound_weaken; [apply snd_lt_binary; assumption|]. cbv beta. intros r (_ & Hr & H).
  split; auto. intro E. specialize (H E). pose proof (evi Hp w y). unfold infield in *.
  pose proof (evi Hp w x). unfold infield in *. destruct Hvx; lia.
Qed.

Lemma snd_gt x y : sound w (gt x y)
  (fun r => is_bit (ev w r) /\ (ev w r = 1 -> ev w y < ev w x)).
Proof using Hp Hw.
  unfold gt, cmp. sbind (apply snd_split). intros xb (Lx & Hbx & Hvx).
  sbind (apply (snd_split_amb Hp w Hw)). intros yb (Ly & Hby & Hvy).
  eapply sound_weaken; [apply snd_gt_binary; assumption|]. cbv beta. intros r (_ & Hr & H).
  split; auto. intro E. specialize (H E). pose proof (evi Hp w y). unfold infield in *.
  pose proof (evi Hp w x). unfold infield in *. destruct Hvy; lia.
Qed.

Lemma snd_le x y : sound w (le x y)
  (fun r => is_bit (ev w r) /\ (ev w r = 0 -> ev w y < ev w x \/ ev w x + order < 2 ^ Z.of_nat max_bits)).
Proof using Hp Hw.
  unfold le, cmp. sbind (apply (snd_split_amb Hp w Hw)). intros xb (Lx & Hbx & Hvx).
  sbind (apply snd_split). intros yb (Ly & Hby & Hvy).
  eapply sound_weaken; [apply snd_le_binary; assumption|]. cbv beta. intros r (_ & Hr & H).
  split; auto. intro E. specialize (H E). pose proof (bin_val_bound w xb Hbx) as Hb. rewrite Lx in Hb.
  destruct Hvx as [Hvx|Hvx]; [left|right]; lia.
Qed.

Lemma snd_ge x y : sound w (ge x y)
  (fun r => is_bit (ev w r) /\ (ev w r = 0 -> ev w x < ev w y \/ ev w y + order < 2 ^ Z.of_nat max_bits)).
Proof using Hp Hw.
  unfold ge, cmp. sbind (apply snd_split). intros xb (Lx & Hbx & Hvx).
  sbind (apply (snd_split_amb Hp w Hw)). intros yb (Ly & Hby & Hvy).
  eapply sound_weaken; [apply snd_ge_binary; assumption|]. cbv beta. intros r (_ & Hr & H).
  split; auto. intro E. specialize (H E). pose proof (bin_val_bound w yb Hby) as Hb. rewrite Ly in Hb.
  destruct Hvy as [Hvy|Hvy]; [left|right]; lia.
Qed.

Lemma snd_cmp_bit x y less strict : sound w (cmp x y less strict) (fun r => is_bit (ev w r)).
Proof using Hp Hw.
  unfold cmp. destruct less.
  - sbind (apply (snd_split_amb Hp w Hw)). intros xb (_ & Hbx & _).
    sbind (apply snd_split). intros yb (_ & Hby & _).
    eapply sound_weaken; [apply (snd_cmp_binary Hp w Hw); assumption|]. cbv beta. intros r (_ & _ & Hr). eapply cmp_result_bit; exact Hr.
  - sbind (apply snd_split). intros xb (_ & Hbx & _).
    sbind (apply (snd_split_amb Hp w Hw)). intros yb (_ & Hby & _).
    eapply sound_weaken; [apply (snd_cmp_binary Hp w Hw); assumption|]. cbv beta. intros r (_ & _ & Hr). eapply cmp_result_bit; exact Hr.
Qed.

Lemma snd_assert_lt x y : sound w (assert_lt x y) (fun _ => ev w x < ev w y).
Proof using Hp Hw.
  unfold assert_lt. sbind (apply snd_lt). intros r [_ H].
  eapply sound_weaken; [apply (snd_assert_true Hp w Hw)|]. cbv beta. auto.
Qed.

Lemma snd_assert_gt x y : sound w (assert_gt x y) (fun _ => ev w y < ev w x).
Proof using Hp Hw.
  unfold assert_gt. sbind (apply snd_gt). intros r [_ H].
  eapply sound_weaken; [apply (snd_assert_true Hp w Hw)|]. cbv beta. auto.
Qed.

(** ** integer modulus: what is enforced *)
Lemma snd_modulus x y : sound w (modulus x y)
  (fun r => ev w r < ev w y /\ exists q, infield q /\ (ev w y * q + ev w r) mod order = ev w x).
Proof using Hp Hw.
  unfold modulus. sbind (apply sound_true). intros q _. sbind (apply sound_true). intros r _.
  sbind (apply sound_assert_product). intros _ H.
  sbind (apply snd_assert_lt). intros _ Hlt. sbind (apply sound_true). intros _ _. apply sound_ret.
  split; [exact Hlt|]. exists (w q). split; [apply Hw|].
  rewrite (ev_wire_ Hp w Hw) in *. rewrite (ev_sub_mod Hp w), (ev_wire_ Hp w Hw) in H.
  rewrite <- Zplus_mod_idemp_l, H, Zplus_mod_idemp_l. replace (ev w x - w r + w r) with (ev w x) by ring.
  apply (ev_mod Hp w).
Qed.

(** ** binary sums *)
Lemma max_sum_acc (ts : list binexpr) : forall s,
  fold_left (fun s (t : binexpr) => s + (2 ^ Z.of_nat (length t) - 1)) ts s
  = s + fold_right (fun (t : binexpr) s => (2 ^ Z.of_nat (length t) - 1) + s) 0 ts.
Proof. induction ts as [|t ts IH]; intro s; simpl; [lia|]. rewrite IH. lia. Qed.

Definition sum_vals (ts : list binexpr) : Z := fold_right (fun t s => bin_val w t + s) 0 ts.

Lemma sum_vals_bound ts : Forall (bin_ok w) ts -> 0 <= sum_vals ts <= max_sum ts.
Proof.
  intro H. unfold max_sum. rewrite max_sum_acc. unfold sum_vals.
  induction H as [|t ts Ht _ IH]; simpl; [lia|]. pose proof (bin_val_bound w t Ht). lia.
Qed.

Lemma snd_binary_summation ts : Forall (bin_ok w) ts -> sound w (binary_summation ts)
  (fun r => length r = zbits (max_sum ts) /\ (length r < max_bits)%nat /\
            bin_ok w r /\ bin_val w r = sum_vals ts).
Proof using Hp Hw.
  intro Ht. unfold binary_summation. cbv zeta.
  sbind0; [apply sound_lift with (Q := fun _ => (zbits (max_sum ts) < max_bits)%nat)|cbv beta].
  { intros [] E. unfold oassert in E. destruct (Nat.ltb_spec (zbits (max_sum ts)) max_bits); [assumption|discriminate]. }
  intros _ Hn. sbind (apply (snd_binary_wire Hp w Hw)). intros ws [Lw Hb].
  assert (Lb : length (bin_of_wires ws) = zbits (max_sum ts)) by (unfold bin_of_wires; rewrite map_length; exact Lw).
  sbind0; [apply sound_lift with (Q := fun js => ev w (e_sum js) = sum_vals ts mod order)|cbv beta].
  { intros js E. rewrite (ev_sum Hord). apply omap_Forall2 in E.
    assert (G : fold_right (fun e s => ev w e + s) 0 js mod order = sum_vals ts mod order); [|exact G].
    clear - E Hord. induction E as [|t e ts js Ee _ IH]; [reflexivity|].
    apply (bin_join_inv Hord) in Ee. destruct Ee as (_ & _ & Hev & _).
    simpl. rewrite Hev. zmod. rewrite Zplus_mod, IH, <- Zplus_mod. reflexivity. }
  intros js Hjs.
  sbind0; [apply sound_lift with (Q := fun j => ev w j = bin_val w (bin_of_wires ws) mod order)|cbv beta].
  { intros j E. apply (bin_join_inv Hord) in E. apply E. }
  intros j Hj. sbind (apply (snd_assert_equal Hp w Hw)). intros _ He.
  sbind (apply sound_true). intros _ _. apply sound_ret.
  rewrite Hjs, Hj in He. repeat split; auto; [lia|].
  pose proof (sum_vals_bound ts Ht) as B1.
  pose proof (bin_val_bound w _ Hb) as B2. rewrite Lb in B2.
  pose proof (pow2_lt_order Hord _ Hn). pose proof (zbits_spec (max_sum ts) ltac:(lia)).
  rewrite !Z.mod_small in He by lia. congruence.
Qed.

Lemma bin_truncate_val x n r : bin_truncate x n = Ok r -> bin_ok w x ->
  (n <= length x)%nat /\ length r = n /\ bin_ok w r /\ bin_val w r = bin_val w x mod 2 ^ Z.of_nat n
  /\ bin_val w x = bin_val w r + 2 ^ Z.of_nat n * bin_val w (skipn n x).
Proof.
  unfold bin_truncate. intros E Hb. unfold oassert in E. destruct (Nat.leb_spec n (length x)); [|discriminate].
  simpl in E. inversion E; subst r. clear E.
  assert (Hl : length (firstn n x) = n) by (rewrite firstn_length; lia).
  assert (Hf : bin_ok w (firstn n x)).
  { unfold bin_ok in *. rewrite <- (firstn_skipn n x) in Hb. apply Forall_app in Hb. apply Hb. }
  assert (Hv : bin_val w x = bin_val w (firstn n x) + 2 ^ Z.of_nat n * bin_val w (skipn n x)).
  { rewrite <- (firstn_skipn n x) at 1. rewrite bin_val_app, Hl. reflexivity. }
  repeat split; auto. rewrite Hv, Z.mul_comm, Z_mod_plus_full. symmetry. apply Z.mod_small.
  pose proof (bin_val_bound w _ Hf). rewrite Hl in *. assumption.
Qed.

Lemma snd_bs_ignoring ts : Forall (bin_ok w) ts -> sound w (binary_summation_ignoring_overflow ts)
  (fun r => length r = max_len ts /\ bin_ok w r /\ bin_val w r = sum_vals ts mod 2 ^ Z.of_nat (max_len ts)).
Proof using Hp Hw.
  intro Ht. unfold binary_summation_ignoring_overflow. sbind (apply snd_binary_summation; assumption).
  intros s (Ls & _ & Hb & Hv). apply sound_lift. intros r E.
  apply bin_truncate_val in E; auto. rewrite Hv in E. tauto.
Qed.

(** ** binary_assert_zero *)
Lemma bits_val_zero l : Forall is_bit l -> bits_val l = 0 -> Forall (fun b => b = 0) l.
Proof.
  induction 1 as [|b l Hb Hl IH]; intro E; constructor; cbn [bits_val] in E;
    pose proof (bits_val_bound l Hl); destruct Hb; try lia.
  apply IH. lia.
Qed.

Lemma bin_val_zero x : bin_ok w x -> bin_val w x = 0 -> Forall (fun e => ev w e = 0) x.
Proof.
  intros Hb E. apply bits_val_zero in E; [|rewrite Forall_map; exact Hb].
  rewrite Forall_map in E. exact E.
Qed.

Lemma snd_binary_assert_zero x : bin_ok w x ->
  sound w (binary_assert_zero x) (fun _ => Forall (fun e => ev w e = 0) x).
Proof using Hp Hw.
  intro Hb. unfold binary_assert_zero.
  sbind0; [apply sound_lift with (Q := fun b => b = (max_bits - 1)%nat)|cbv beta].
  { intros b E. unfold osub in E. destruct (1 <=? max_bits)%nat; congruence. }
  intros bits ->.
  sbind0; [apply sound_lift with (Q := fun cs => (0 < max_bits - 1)%nat /\ cs = chunks_fuel (length x) (max_bits - 1) x)|cbv beta].
  { intros cs E. unfold bin_chunks, chunks in E. destruct (Nat.eqb_spec (max_bits - 1) 0); [discriminate|].
    inversion E. split; [lia|reflexivity]. }
  intros cs [Hn ->].
  pose proof (chunks_fuel_Forall _ (max_bits - 1) (length x) x Hb) as Fc. rewrite Forall_forall in Fc.
  eapply sound_bind with (Q := fun us => Forall2 (fun c (_ : unit) => bin_val w c = 0)
    (chunks_fuel (length x) (max_bits - 1) x) us); [|intro; mono|cbv beta].
  { apply sound_bmap with (Q := fun c (_ : unit) => bin_val w c = 0); [intro; mono|].
    intros ch Hch. sbind (apply sound_lift; intros e He; exact (bin_join_inv Hord _ _ He)).
    intros e (_ & _ & He & _). eapply sound_weaken; [apply (snd_assert_zero Hp w Hw)|].
    cbv beta. intros _ Hz. rewrite He in Hz. destruct (Fc ch Hch) as [Hk Lk].
    rewrite Z.mod_small in Hz; [exact Hz|].
    pose proof (bin_val_bound w ch Hk). pose proof (pow2_lt_order Hord (length ch) ltac:(lia)). lia. }
  intros us Hus. apply sound_ret. apply bin_val_zero; auto.
  rewrite (chunks_fuel_digits w (max_bits - 1) Hn (length x) x (le_n _)).
  clear - Hus. induction Hus as [|c u cs us Hc _ IH]; [reflexivity|]. cbn [map digits_val]. rewrite Hc, IH. lia.
Qed.

Lemma all_zero_val x : Forall (fun e => ev w e = 0) x -> bin_val w x = 0.
Proof. unfold bin_val. induction 1 as [|e x He _ IH]; [reflexivity|]. cbn [map bits_val]. lia. Qed.

Lemma snd_bs_asserting ts : Forall (bin_ok w) ts -> sound w (binary_summation_asserting_no_overflow ts)
  (fun r => length r = max_len ts /\ bin_ok w r /\ bin_val w r = sum_vals ts /\
            sum_vals ts < 2 ^ Z.of_nat (max_len ts)).
Proof using Hp Hw.
  intro Ht. unfold binary_summation_asserting_no_overflow. sbind (apply snd_binary_summation; assumption).
  intros s (Ls & _ & Hb & Hv).
  sbind0; [apply sound_lift with (Q := fun c => c = skipn (max_len ts) s)|cbv beta].
  { intros c E. unfold oslice_from, oassert in E. destruct (_ <=? _)%nat; [|discriminate]. simpl in E. congruence. }
  intros c ->.
  assert (Hb2 : bin_ok w (skipn (max_len ts) s)).
  { unfold bin_ok in *. rewrite <- (firstn_skipn (max_len ts) s) in Hb. apply Forall_app in Hb. apply Hb. }
  sbind (apply snd_binary_assert_zero; assumption). intros _ Hz. apply all_zero_val in Hz.
  apply sound_lift. intros r E. apply bin_truncate_val in E; auto.
  destruct E as (_ & Lr & Hr & _ & E2). rewrite Hz, Z.mul_0_r, Z.add_0_r in E2. repeat split; auto; [congruence|].
  rewrite <- Hv, E2, <- Lr. apply (bin_val_bound w r Hr).
Qed.

(** ** bitwise operations *)
Lemma Forall2_map_ev {A} (f : A -> Z) (l : list A) (r : list expr) :
  Forall2 (fun a e => ev w e = f a) l r -> map (ev w) r = map f l.
Proof. induction 1; simpl; congruence. Qed.

Lemma bits_val_not l : Forall is_bit l -> bits_val (map (fun b => 1 - b) l) = 2 ^ Z.of_nat (length l) - 1 - bits_val l.
Proof.
  induction 1 as [|b l _ _ IH]; [reflexivity|]. cbn [map bits_val length]. rewrite IH, pow2_S. ring.
Qed.

Lemma snd_bitwise_not x : bin_ok w x -> sound w (bitwise_not x)
  (fun r => length r = length x /\ bin_ok w r /\ bin_val w r = 2 ^ Z.of_nat (length x) - 1 - bin_val w x).
Proof using Hp Hw.
  intro Hb. unfold bitwise_not.
  eapply sound_weaken.
  { apply sound_bmap with (Q := fun a e => ev w e = 1 - ev w a); [intro; mono|].
    intros e He. apply (snd_not Hp w Hw). unfold bin_ok in Hb. rewrite Forall_forall in Hb. apply Hb, He. }
  cbv beta. intros r H. assert (Lr : length r = length x) by (symmetry; eapply Forall2_length; eauto).
  split; auto. assert (E : map (ev w) r = map (fun b => 1 - b) (map (ev w) x)).
  { rewrite map_map. apply Forall2_map_ev. exact H. }
  split.
  - unfold bin_ok in *. rewrite <- (Forall_map (ev w) is_bit) in Hb |- *. rewrite E.
    clear - Hb. induction Hb as [|b l Hb _ IH]; simpl; constructor; auto. destruct Hb; subst; [right|left]; reflexivity.
  - unfold bin_val. rewrite E, bits_val_not, map_length; auto. rewrite Forall_map. exact Hb.
Qed.

(** elementwise boolean operation on integers *)
Lemma bits_val_zop (f : Z -> Z -> Z) (zop : Z -> Z -> Z) (bop : bool -> bool -> bool) xs ys :
  (forall a b n, 0 <= n -> Z.testbit (zop a b) n = bop (Z.testbit a n) (Z.testbit b n)) ->
  (forall a b, 0 <= a -> 0 <= b -> 0 <= zop a b) ->
  (forall a b : bool, f (b2z a) (b2z b) = b2z (bop a b)) ->
  length xs = length ys -> Forall is_bit xs -> Forall is_bit ys ->
  bits_val (map (fun p => f (fst p) (snd p)) (combine xs ys)) = zop (bits_val xs) (bits_val ys).
Proof.
  intros Hbit Hnn Hf. revert ys. induction xs as [|x xs IH]; intros [|y ys] L Hx Hy; try discriminate.
  - cbn [combine map bits_val]. symmetry.
    assert (bop false false = false).
    { pose proof (Hbit 0 0 (Z.log2 (zop 0 0) + 1)) as H. rewrite !Z.bits_0 in H.
      destruct (bop false false); auto. specialize (Hnn 0 0). pose proof (Z.log2_nonneg (zop 0 0)).
      rewrite Z.bits_above_log2 in H by lia. symmetry. apply H. lia. }
    apply Z.bits_inj'. intros n Hn. rewrite Hbit, !Z.bits_0 by auto. auto.
  - inversion Hx; inversion Hy; subst. cbn [combine map bits_val fst snd].
    rewrite IH by (auto; simpl in L; lia).
    pose proof (bits_val_bound xs ltac:(assumption)) as Bx. pose proof (bits_val_bound ys ltac:(assumption)) as By.
    set (X := bits_val xs) in *. set (Y := bits_val ys) in *.
    assert (exists a, x = b2z a) as [a ->] by (destruct H1; [exists false|exists true]; assumption).
    assert (exists b, y = b2z b) as [b ->] by (destruct H5; [exists false|exists true]; assumption).
    rewrite Hf. apply Z.bits_inj'. intros n Hn. rewrite Hbit by auto.
    assert (G : forall (c : bool) Z0 n, 0 <= n -> Z.testbit (b2z c + 2 * Z0) n = if n =? 0 then c else Z.testbit Z0 (n - 1)).
    { clear. intros c Z0 n Hn. destruct (Z.eqb_spec n 0) as [->|].
      - rewrite Z.bit0_odd, Z.odd_add_mul_2. destruct c; reflexivity.
      - rewrite Z.add_comm. replace n with (Z.succ (n - 1)) at 1 by lia.
        change (b2z c) with (Z.b2z c). apply Z.testbit_succ_r. lia. }
    rewrite !G by auto. destruct (Z.eqb_spec n 0); auto. rewrite Hbit by lia. reflexivity.
Qed.

Lemma combine_seq_nth {A} (l : list A) (d : A) : map (fun i => nth i l d) (seq 0 (length l)) = l.
Proof.
  induction l as [|a l IH]; [reflexivity|]. cbn [length seq map nth]. f_equal.
  rewrite <- seq_shift, map_map. exact IH.
Qed.

Lemma snd_bitwise2 op (f : Z -> Z -> Z) x y : (forall a b, mono (op a b)) ->
  (forall a b, is_bit (ev w a) -> is_bit (ev w b) -> sound w (op a b) (fun r => ev w r = f (ev w a) (ev w b))) ->
  bin_ok w x -> bin_ok w y ->
  sound w (bitwise2 op x y) (fun r => length x = length y /\ length r = length x /\
    map (ev w) r = map (fun p => f (fst p) (snd p)) (combine (map (ev w) x) (map (ev w) y))).
Proof using Hp.
  intros HM Hop Hx Hy. unfold bitwise2.
  sbind0; [apply sound_lift with (Q := fun _ => length x = length y)|cbv beta].
  { intros [] E. unfold oassert in E. destruct (Nat.eqb_spec (length x) (length y)); [assumption|discriminate]. }
  intros _ L. eapply sound_weaken.
  { apply sound_bmap with (Q := fun i e => ev w e = f (nth i (map (ev w) x) 0) (nth i (map (ev w) y) 0)); [intro; mono|].
    intros i Hi. apply in_seq in Hi. unfold bin_ok in *. rewrite Forall_forall in Hx, Hy.
    sbind (apply sound_lift; intros a Ha; exact Ha). intros a Ha.
    sbind (apply sound_lift; intros b Hb; exact Hb). intros b Hb.
    rewrite (nth_map_ev Hp w _ _ _ Ha), (nth_map_ev Hp w _ _ _ Hb).
    apply Hop.
    - apply Hx. apply (oindex_nth x i a e_zero) in Ha. destruct Ha as [Hl <-]. apply nth_In, Hl.
    - apply Hy. apply (oindex_nth y i b e_zero) in Hb. destruct Hb as [Hl <-]. apply nth_In, Hl. }
  cbv beta. intros r H. split; auto.
  assert (Lr : length r = length x) by (rewrite <- (Forall2_length _ _ _ H); apply seq_length).
  split; auto. apply Forall2_map_ev in H. rewrite H.
  assert (Lc : length (combine (map (ev w) x) (map (ev w) y)) = length x).
  { rewrite combine_length, !map_length. lia. }
  rewrite <- (combine_seq_nth (combine (map (ev w) x) (map (ev w) y)) (0, 0)), Lc, map_map.
  apply map_ext_in. intros i Hi. rewrite combine_nth by (rewrite !map_length; assumption). reflexivity.
Qed.

Lemma bitwise_bits f x y r : (forall a b, is_bit a -> is_bit b -> is_bit (f a b)) ->
  bin_ok w x -> bin_ok w y ->
  map (ev w) r = map (fun p => f (fst p) (snd p)) (combine (map (ev w) x) (map (ev w) y)) -> bin_ok w r.
Proof.
  intros Hf Hx Hy E. unfold bin_ok in *. rewrite <- (Forall_map (ev w) is_bit) in Hx, Hy |- *. rewrite E.
  clear E. revert Hx Hy. generalize (map (ev w) x) (map (ev w) y). clear - Hf.
  induction l as [|a l IH]; intros [|b l'] Ha Hb; simpl; constructor; inversion Ha; inversion Hb; subst; auto.
Qed.

Lemma is_bit_b2z z : is_bit z -> exists b : bool, z = b2z b.
Proof. intros [->| ->]; [exists false|exists true]; reflexivity. Qed.

Lemma snd_bitwise_and x y : bin_ok w x -> bin_ok w y -> sound w (bitwise_and x y)
  (fun r => length x = length y /\ length r = length x /\ bin_ok w r /\ bin_val w r = Z.land (bin_val w x) (bin_val w y)).
Proof using Hp Hw.
  intros Hx Hy. eapply sound_weaken.
  { apply snd_bitwise2 with (f := Z.mul); auto; [intros; mono|]. intros. apply (snd_and Hp w Hw); assumption. }
  cbv beta. intros r (L & Lr & E). repeat split; auto.
  - apply (bitwise_bits Z.mul x y); auto. intros a b [->| ->] [->| ->]; [left|left|left|right]; reflexivity.
  - unfold bin_val. rewrite E. apply bits_val_zop with (f := Z.mul) (bop := andb); auto.
    + intros. apply Z.land_spec.
    + intros. apply Z.land_nonneg. auto.
    + intros [] []; reflexivity.
    + rewrite !map_length. exact L.
    + rewrite Forall_map. exact Hx.
    + rewrite Forall_map. exact Hy.
Qed.

Lemma snd_bitwise_or x y : bin_ok w x -> bin_ok w y -> sound w (bitwise_or x y)
  (fun r => length x = length y /\ length r = length x /\ bin_ok w r /\ bin_val w r = Z.lor (bin_val w x) (bin_val w y)).
Proof using Hp Hw.
  intros Hx Hy. eapply sound_weaken.
  { apply snd_bitwise2 with (f := Z.max); auto; [intros; mono|]. intros. apply (snd_or Hp w Hw); assumption. }
  cbv beta. intros r (L & Lr & E). repeat split; auto.
  - apply (bitwise_bits Z.max x y); auto. intros a b [->| ->] [->| ->]; [left|right|right|right]; reflexivity.
  - unfold bin_val. rewrite E. apply bits_val_zop with (f := Z.max) (bop := orb); auto.
    + intros. apply Z.lor_spec.
    + intros. apply Z.lor_nonneg. auto.
    + intros [] []; reflexivity.
    + rewrite !map_length. exact L.
    + rewrite Forall_map. exact Hx.
    + rewrite Forall_map. exact Hy.
Qed.

Lemma snd_bitwise_xor x y : bin_ok w x -> bin_ok w y -> sound w (bitwise_xor x y)
  (fun r => length x = length y /\ length r = length x /\ bin_ok w r /\ bin_val w r = Z.lxor (bin_val w x) (bin_val w y)).
Proof using Hp Hw.
  intros Hx Hy. eapply sound_weaken.
  { apply snd_bitwise2 with (f := fun a b => if a =? b then 0 else 1); auto; [intros; mono|].
    intros. apply (snd_xor Hp w Hw); assumption. }
  cbv beta. intros r (L & Lr & E). repeat split; auto.
  - apply (bitwise_bits (fun a b => if a =? b then 0 else 1) x y); auto. intros a b [->| ->] [->| ->]; [left|right|right|left]; reflexivity.
  - unfold bin_val. rewrite E. apply bits_val_zop with (f := fun a b => if a =? b then 0 else 1) (bop := xorb); auto.
    + intros. apply Z.lxor_spec.
    + intros. apply Z.lxor_nonneg. tauto.
    + intros [] []; reflexivity.
    + rewrite !map_length. exact L.
    + rewrite Forall_map. exact Hx.
    + rewrite Forall_map. exact Hy.
Qed.

(** ** random access *)
Lemma snd_select_pairs l : is_bit (ev w l) -> forall n items, (length items <= n)%nat ->
  sound w (select_pairs l items) (fun ps => length ps = ((length items + 1) / 2)%nat /\
    forall k, (2 * k < length items)%nat -> ev w (nth k ps e_zero) =
      ev w (nth (if (2 * k + Z.to_nat (ev w l) <? length items)%nat then (2 * k + Z.to_nat (ev w l))%nat else (2 * k)%nat) items e_zero)).
Proof using Hp Hw.
  intro Hb. induction n as [|n IH]; intros items L.
  - destruct items; [|simpl in L; lia]. apply sound_ret. split; [reflexivity|]. simpl. lia.
  - destruct items as [|a [|b items]]; cbn [select_pairs].
    + apply sound_ret. split; [reflexivity|]. simpl. lia.
    + apply sound_ret. split; [reflexivity|]. cbn [length]. intros k Hk. assert (k = 0)%nat by lia. subst.
      destruct (Nat.ltb_spec (2 * 0 + Z.to_nat (ev w l)) 1) as [H|H]; [|reflexivity].
      assert (Z.to_nat (ev w l) = 0)%nat as -> by lia. reflexivity.
    + sbind (apply (snd_selection Hp w Hw); assumption). intros s Hs.
      sbind (apply IH; simpl in L; lia). intros ss [Lss Hss]. apply sound_ret. cbn [length]. split.
      { rewrite Lss. replace (S (S (length items)) + 1)%nat with (length items + 1 + 1 * 2)%nat by lia.
        rewrite Nat.div_add by lia. lia. }
      intros k Hk. destruct k as [|k].
      * cbn [nth]. rewrite Hs. destruct Hb as [->| ->]; reflexivity.
      * cbn [nth]. rewrite Hss by lia.
        replace (2 * S k)%nat with (S (S (2 * k))) by lia.
        replace (S (S (2 * k)) + Z.to_nat (ev w l))%nat with (S (S (2 * k + Z.to_nat (ev w l)))) by lia.
        change (S (S (2 * k + Z.to_nat (ev w l))) <? S (S (length items)))%nat with (2 * k + Z.to_nat (ev w l) <? length items)%nat.
        destruct (2 * k + Z.to_nat (ev w l) <? length items)%nat; reflexivity.
Qed.

Lemma tree_pos_lt levels : forall n i, (0 < n)%nat -> (tree_pos levels n i < n)%nat.
Proof.
  induction levels as [|l IH]; intros n i Hn; cbn [tree_pos]; [exact Hn|].
  destruct (Nat.ltb_spec (2 * tree_pos l ((n + 1) / 2) (i / 2) + i mod 2) n) as [H|H]; [exact H|].
  specialize (IH ((n + 1) / 2)%nat (i / 2)%nat). pose proof (Nat.div_mod (n + 1) 2 ltac:(lia)).
  pose proof (Nat.mod_upper_bound (n + 1) 2 ltac:(lia)). lia.
Qed.

(** Within range the position is the index. *)
Lemma tree_pos_in levels : forall n i, (n <= 2 ^ levels)%nat -> (i < n)%nat -> tree_pos levels n i = i.
Proof.
  induction levels as [|l IH]; intros n i Hn Hi; cbn [tree_pos]; [simpl in Hn; lia|].
  rewrite Nat.pow_succ_r' in Hn.
  pose proof (Nat.div_mod (n + 1) 2 ltac:(lia)). pose proof (Nat.mod_upper_bound (n + 1) 2 ltac:(lia)).
  pose proof (Nat.div_mod i 2 ltac:(lia)) as Di. pose proof (Nat.mod_upper_bound i 2 ltac:(lia)).
  rewrite IH by lia. destruct (Nat.ltb_spec (2 * (i / 2) + i mod 2) n); lia.
Qed.

Lemma snd_rab bits : bin_ok w bits -> forall items,
  sound w (random_access_binary items bits) (fun r =>
    (0 < length items)%nat /\
    ev w r = ev w (nth (tree_pos (length bits) (length items) (Z.to_nat (bin_val w bits))) items e_zero)).
Proof using Hp Hw.
  induction 1 as [|b bits Hb Hbs IH]; intros items.
  - destruct items as [|x [|y items]]; cbn [random_access_binary].
    + intros ? ? ? E. discriminate.
    + sbind (apply sound_true). intros _ _. apply sound_ret. split; [simpl; lia|reflexivity].
    + intros ? ? ? E. discriminate.
  - assert (G : sound w (parents <- select_pairs b items;; random_access_binary parents bits)
       (fun r => (0 < length items)%nat /\
      ev w r = ev w (nth (tree_pos (length (b :: bits)) (length items) (Z.to_nat (bin_val w (b :: bits)))) items e_zero))).
    { sbind (apply (snd_select_pairs b Hb (length items)); lia). intros ps [Lp Hps].
      eapply sound_weaken; [apply IH|]. cbv beta. intros r [H0 Hr].
      pose proof (bin_val_bound w bits Hbs) as Bd.
      assert (Hl : (0 < length items)%nat).
      { destruct items; [simpl in Lp; lia|simpl; lia]. }
      split; [exact Hl|]. rewrite Hr. rewrite Hps.
      - cbn [length tree_pos]. rewrite <- Lp.
        change (bin_val w (b :: bits)) with (ev w b + 2 * bin_val w bits).
        assert (Ed : (Z.to_nat (ev w b + 2 * bin_val w bits) / 2 = Z.to_nat (bin_val w bits))%nat).
        { symmetry. apply Nat.div_unique with (r := Z.to_nat (ev w b)); destruct Hb as [->| ->]; lia. }
        assert (Em : (Z.to_nat (ev w b + 2 * bin_val w bits) mod 2 = Z.to_nat (ev w b))%nat).
        { symmetry. apply Nat.mod_unique with (q := Z.to_nat (bin_val w bits)); destruct Hb as [->| ->]; lia. }
        rewrite Ed, Em. reflexivity.
      - pose proof (tree_pos_lt (length bits) (length ps) (Z.to_nat (bin_val w bits)) H0).
        pose proof (Nat.div_mod (length items + 1) 2 ltac:(lia)). pose proof (Nat.mod_upper_bound (length items + 1) 2 ltac:(lia)). lia. }
    destruct items as [|x [|y items]]; cbn [random_access_binary]; auto.
    sbind0; [apply sound_lift with (Q := fun _ => False)|intros _ []].
    intros [] E. discriminate.
Qed.

Lemma snd_random_access items i : sound w (random_access items i) (fun r =>
    (0 < length items)%nat /\ ev w i < 2 ^ Z.of_nat (index_bits (length items)) /\
    ev w r = ev w (nth (tree_pos (index_bits (length items)) (length items) (Z.to_nat (ev w i))) items e_zero)).
Proof using Hp Hw.
  unfold random_access. sbind (apply (snd_split_bounded Hp w Hw)). intros bits (_ & L & Hb & Hv).
  eapply sound_weaken; [apply snd_rab, Hb|]. cbv beta. rewrite Hv, L. intros r [H0 Hr]. split; [exact H0|]. split; [|exact Hr].
  rewrite <- L. apply (bin_val_bound w bits Hb).
Qed.

End Snd.
