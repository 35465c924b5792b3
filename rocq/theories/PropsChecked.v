(** C109: what callers can add to make the gadgets sound that are not. *)
From Coq Require Import ZArith List Bool Arith Lia Znumtheory Permutation Sorted.
From Verif Require Import Base FieldM FieldP ExprM BuilderM GadgetsM WaksmanM Spec ExprP BitsP MonoP LocalP SoundP CmpP GadgetSoundP HonestP
  CompleteP CmpCompleteP GadgetCompleteP SatP ForgeP Demo PropLib WaksmanP SortP ProgramP PropsExact.
Import ListNotations.
Open Scope Z_scope.

(** ** Client circuits: the call, followed by assertions. Not code of /repo. *)
Section Client.
Context {F : Field}.
(** An inverse or zero, with (1 - x r) r = 0. *)
Definition checked_inverse_or_zero (x : expr) : B expr :=
  r <- inverse_or_zero x ;; p <- product x r ;; _ <- assert_product (e_sub e_one p) r e_zero ;; bret r.
(** The quotient, with q y = x. *)
Definition checked_quotient (x y : expr) : B expr :=
  q <- quotient_unsafe x y ;; _ <- assert_product q y x ;; bret q.
(** Exactly one of x < y, y < x and x = y. *)
Definition checked_lt (x y : expr) : B expr :=
  r <- lt x y ;; s <- lt y x ;; e <- g_equal x y ;; _ <- assert_equal (e_add (e_add r s) e) e_one ;; bret r.
Definition checked_le (x y : expr) : B expr := r <- checked_lt y x ;; b_not r.
(** x < y or x = y. *)
Definition assert_at_most (x y : expr) : B unit :=
  r <- lt x y ;; e <- g_equal x y ;; assert_equal (e_add r e) e_one.
(** Each item at most the next. *)
Fixpoint assert_ascending (l : list expr) : B unit :=
  match l with
  | x :: l' => match l' with y :: _ => _ <- assert_at_most x y ;; assert_ascending l' | [] => bret tt end
  | [] => bret tt
  end.
Definition checked_sort (l : list expr) : B (list expr) := r <- sort_ascending l ;; _ <- assert_ascending r ;; bret r.
(** The remainder of numbers of at most k bits: the divisor and the quotient have k bits, so that nothing wraps around. *)
Definition checked_modulus (k : nat) (x y : expr) : B expr :=
  r <- modulus x y ;; q <- quotient (e_sub x r) y ;; _ <- split_bounded q k ;; _ <- split_bounded y k ;; bret r.
(** Whether x divides y. *)
Definition checked_divides (k : nat) (x y : expr) : B expr := r <- checked_modulus k y x ;; g_zero r.
End Client.

Section Proofs.
Context {F : Field} (Hp : prime order) (H4 : (4 <= max_bits)%nat).
Let Hord : 2 <= order := prime_ge2 Hp.
Let H2 : 2 < order := max_bits_odd H4.

Lemma order_4 : 4 <= order.
Proof using Hp H4.
  pose proof (max_bits_lower Hord) as L. assert (2 ^ Z.of_nat 3 <= 2 ^ Z.of_nat (max_bits - 1)) by (apply Z.pow_le_mono_r; lia). change (2 ^ Z.of_nat 3) with 8 in H. lia.
Qed.

Lemma local_lt x y : local (lt x y). Proof. unfold lt. local. Qed.
Lemma mono_at_most x y : mono (assert_at_most x y). Proof. unfold assert_at_most. mono. Qed.
Lemma local_at_most x y : local (assert_at_most x y). Proof. unfold assert_at_most. local. Qed.
Lemma mono_ascending l : mono (assert_ascending l).
Proof. induction l as [|x [|y l'] IH]; cbn [assert_ascending]; [mono|mono|]. apply mono_bind; [apply mono_at_most|intro; exact IH]. Qed.
Lemma local_ascending l : local (assert_ascending l).
Proof. induction l as [|x [|y l'] IH]; cbn [assert_ascending]; [local|local|]. apply local_bind; [apply local_at_most|intro; exact IH]. Qed.

(** ** Inverse or zero, quotient *)
Lemma snd_checked_inverse w : wf_witness w -> forall x, sound w (checked_inverse_or_zero x) (fun r => ev w r = finvv (ev w x)).
Proof using Hp H4.
  intros Hw x. unfold checked_inverse_or_zero. sbind (apply (snd_inverse_or_zero_nz Hp w Hw)). intros r Hr. sbind (apply (snd_product Hp w Hw)). intros p Ep.
  sbind (apply sound_assert_product). intros _ E. apply sound_ret. pose proof (evi Hp w x) as Ix. pose proof (evi Hp w r) as Ir.
  destruct (Z.eq_dec (ev w x) 0) as [Z0|Nz].
  - rewrite (ev_sub_mod Hp), (ev_one_ Hp w Hw), (ev_zero_ Hp), Ep, Z0, Z.mul_0_l, Z.mod_0_l, Z.sub_0_r, Zmult_mod_idemp_l, Z.mul_1_l, (ev_mod Hp) in E by lia.
    rewrite E, Z0. reflexivity.
  - specialize (Hr Nz). rewrite (inv_unique Hp (ev w x) (ev w r)) by assumption. symmetry. apply (inv_unique Hp); [exact Ix|apply (finvv_infield Hp); exact Hord|exact Nz|].
    apply (finvv_correct Hp); assumption.
Qed.
Lemma cmpl_checked_inverse D P s x a : has s x a -> comp D P s (checked_inverse_or_zero x) (done P (fun r s' => has s' r (finvv a))).
Proof using Hp H4.
  intro Hx. pose proof (has_infield Hp _ _ _ Hx) as Ia. unfold checked_inverse_or_zero. cbind (apply (cmpl_inverse_or_zero Hp H2); exact Hx). intros r P1 s1 X1 G1 [-> Hr]. carry.
  cbind (apply (cmpl_product Hp); [exact Hx|exact Hr]). intros p P2 s2 X2 G2 [-> Hq]. carry.
  assert (E : 0 = ((1 - (a * finvv a) mod order) mod order * finvv a) mod order).
  { destruct (Z.eq_dec a 0) as [->|Nz]; [change (finvv 0) with 0; rewrite Z.mul_0_r, Z.mod_0_l by lia; reflexivity|].
    pose proof (finvv_correct Hp a Ia Nz) as C. unfold fmul in C. rewrite C. reflexivity. }
  cbind (eapply comp_assert_product; [apply (has_sub Hp); [apply (has_one Hp), G2|exact Hq]|exact Hr|apply (has_zero Hp)|exact E]).
  intros _ P3 s3 X3 G3 [-> ->]. apply comp_ret. split; [reflexivity|exact Hr].
Qed.

Lemma snd_checked_quotient w : wf_witness w -> forall x y, sound w (checked_quotient x y) (fun q => (ev w q * ev w y) mod order = ev w x).
Proof using Hp H4.
  intros Hw x y. unfold checked_quotient. sbind (apply sound_true). intros q _. sbind (apply sound_assert_product). intros _ E. apply sound_ret. exact E.
Qed.

(** ** Comparisons *)
Definition less (a b : Z) : Z := if a <? b then 1 else 0.

Lemma snd_checked_lt w : wf_witness w -> forall x y, sound w (checked_lt x y) (fun r => ev w r = less (ev w x) (ev w y)).
Proof using Hp H4.
  intros Hw x y. pose proof order_4. unfold checked_lt. sbind (apply (snd_lt Hp w Hw)). intros r [Br Hr]. sbind (apply (snd_lt Hp w Hw)). intros s [Bs Hs].
  sbind (apply (snd_equal Hp w Hw)). intros e He. sbind (apply (snd_assert_equal Hp w Hw)). intros _ E. apply sound_ret.
  rewrite !(ev_add_mod Hp), (ev_one_ Hp w Hw), Zplus_mod_idemp_l, Z.mod_small in E by (destruct Br as [-> | ->], Bs as [-> | ->]; rewrite He; destruct (_ =? _); lia).
  unfold less. destruct (Z.ltb_spec (ev w x) (ev w y)), (Z.eqb_spec (ev w x) (ev w y)), Br as [Er|Er], Bs as [Es|Es]; try specialize (Hr Er); try specialize (Hs Es); lia.
Qed.
Lemma cmpl_checked_lt D P s x y a b : has s x a -> has s y b -> comp D P s (checked_lt x y) (done P (fun r s' => has s' r (less a b))).
Proof using Hp H4.
  intros Hx Hy. pose proof order_4. unfold checked_lt. cbind (apply (cmpl_cmp Hp H2); [exact H4|exact Hx|exact Hy]). intros r P1 s1 X1 G1 [-> Hr]. carry.
  cbind (apply (cmpl_cmp Hp H2); [exact H4|exact Hy|exact Hx]). intros t P2 s2 X2 G2 [-> Ht]. carry.
  cbind (apply (cmpl_equal Hp H2); [exact Hx|exact Hy]). intros e P3 s3 X3 G3 [-> He]. carry.
  unfold cmp_spec in Hr, Ht. cbn [negb] in Hr, Ht.
  cbind (eapply (cmpl_assert_equal Hp); [apply (has_add Hp); [apply (has_add Hp); [exact Hr|exact Ht]|exact He]|eapply has_eq; [apply (has_one Hp), G3|]];
    symmetry; rewrite Zplus_mod_idemp_l, Z.mod_small; destruct (Z.ltb_spec a b), (Z.ltb_spec b a), (Z.eqb_spec a b); cbn; lia).
  intros _ P4 s4 X4 G4 [-> ->]. apply comp_ret. split; [reflexivity|]. eapply has_eq; [exact Hr|]. unfold less. destruct (a <? b); reflexivity.
Qed.

Lemma snd_checked_le w : wf_witness w -> forall x y, sound w (checked_le x y) (fun r => ev w r = if ev w x <=? ev w y then 1 else 0).
Proof using Hp H4.
  intros Hw x y. unfold checked_le, b_not. sbind (apply snd_checked_lt, Hw). intros r Hr. apply sound_ret. rewrite (ev_sub_mod Hp), (ev_one_ Hp w Hw), Hr. unfold less.
  rewrite Z.leb_antisym. destruct (_ <? _); cbn [negb]; apply Z.mod_small; lia.
Qed.
Lemma cmpl_checked_le D P s x y a b : has s x a -> has s y b -> comp D P s (checked_le x y) (done P (fun r s' => has s' r (if a <=? b then 1 else 0))).
Proof using Hp H4.
  intros Hx Hy. unfold checked_le, b_not. cbind (apply cmpl_checked_lt; [exact Hy|exact Hx]). intros r P1 s1 X1 G1 [-> Hr]. apply comp_ret. split; [reflexivity|].
  eapply has_eq; [apply (has_sub Hp); [apply (has_one Hp), G1|exact Hr]|]. unfold less. rewrite Z.leb_antisym. destruct (_ <? _); cbn [negb]; apply Z.mod_small; lia.
Qed.

Lemma snd_at_most w : wf_witness w -> forall x y, sound w (assert_at_most x y) (fun _ => ev w x <= ev w y).
Proof using Hp H4.
  intros Hw x y. pose proof order_4. unfold assert_at_most. sbind (apply (snd_lt Hp w Hw)). intros r [Br Hr].
  sbind (apply (snd_equal Hp w Hw)). intros e He. slast (apply (snd_assert_equal Hp w Hw)). intros _ E.
  rewrite (ev_add_mod Hp), (ev_one_ Hp w Hw), Z.mod_small in E by (destruct Br as [-> | ->]; rewrite He; destruct (_ =? _); lia).
  destruct (Z.eqb_spec (ev w x) (ev w y)), Br as [Er|Er]; try specialize (Hr Er); lia.
Qed.
Lemma cmpl_at_most D P s x y a b : has s x a -> has s y b -> a <= b -> comp D P s (assert_at_most x y) (done P (fun _ _ => True)).
Proof using Hp H4.
  intros Hx Hy L. pose proof order_4. unfold assert_at_most. cbind (apply (cmpl_cmp Hp H2); [exact H4|exact Hx|exact Hy]). intros r P1 s1 X1 G1 [-> Hr]. carry.
  cbind (apply (cmpl_equal Hp H2); [exact Hx|exact Hy]). intros e P3 s3 X3 G3 [-> He]. carry. unfold cmp_spec in Hr. cbn [negb] in Hr.
  cweaken (eapply (cmpl_assert_equal Hp); [apply (has_add Hp); [exact Hr|exact He]|eapply has_eq; [apply (has_one Hp), G3|]];
    symmetry; rewrite Z.mod_small; destruct (Z.ltb_spec a b), (Z.eqb_spec a b); cbn; lia).
  intros u P4 s4 X4 G4 [-> ->]. split; [reflexivity|exact I].
Qed.

(** ** Sorting *)
Lemma snd_ascending w : wf_witness w -> forall l, sound w (assert_ascending l) (fun _ => Sorted Z.le (map (ev w) l)).
Proof using Hp H4.
  intros Hw l. induction l as [|x [|y l'] IH]; cbn [assert_ascending map]; [apply sound_ret; constructor|apply sound_ret; repeat constructor|].
  eapply sound_bind; [apply (snd_at_most w Hw)|intro; exact (mono_ascending (y :: l'))|]. cbv beta. intros _ L. eapply sound_weaken; [exact IH|]. cbv beta. intros _ S.
  constructor; [exact S|constructor; exact L].
Qed.
Lemma cmpl_ascending D P : forall l vs s, hasl s l vs -> Sorted Z.le vs -> comp D P s (assert_ascending l) (done P (fun _ _ => True)).
Proof using Hp H4.
  induction l as [|x [|y l'] IH]; intros vs s H S; cbn [assert_ascending]; [apply comp_ret; split; auto|apply comp_ret; split; auto|].
  inversion H as [|? a ? ? Ha H']; subst. inversion H' as [|? b ? ? Hb H'']; subst. inversion S as [|? ? S' HS]; subst. inversion HS; subst.
  cbind (eapply cmpl_at_most; [exact Ha|exact Hb|assumption]). intros _ P1 s1 X1 G1 [-> _]. refine (IH _ s1 _ S'). eapply hasl_ext; [exact X1|exact H'].
Qed.

Lemma snd_checked_sort w : wf_witness w -> forall l, sound w (checked_sort l) (fun r => Permutation (map (ev w) l) (map (ev w) r) /\ Sorted Z.le (map (ev w) r)).
Proof using Hp H4.
  intros Hw l. unfold checked_sort. eapply sound_bind; [apply (snd_sort_ascending Hp w Hw)|intro; apply mono_bind; [apply mono_ascending|intro; mono]|]. cbv beta. intros r [_ P].
  eapply sound_bind; [apply (snd_ascending w Hw)|intro; mono|]. cbv beta. intros _ S. apply sound_ret. auto.
Qed.

(** ** Remainders *)
Lemma no_wrap k q b r : (k + k < max_bits)%nat -> 0 <= q < 2 ^ Z.of_nat k -> 0 <= r < b -> b < 2 ^ Z.of_nat k -> 0 <= q * b + r < order.
Proof using Hp H4.
  intros Hk Hq Hr Hb. pose proof (max_bits_lower Hord) as L.
  assert (2 ^ Z.of_nat (k + k) <= 2 ^ Z.of_nat (max_bits - 1)) by (apply Z.pow_le_mono_r; lia). rewrite Nat2Z.inj_add, Z.pow_add_r in H by lia. nia.
Qed.
Lemma snd_checked_modulus w : wf_witness w -> forall k x y, (k + k < max_bits)%nat ->
  sound w (checked_modulus k x y) (fun r => 0 < ev w y < 2 ^ Z.of_nat k /\ ev w r = ev w x mod ev w y).
Proof using Hp H4.
  intros Hw k x y Hk. unfold checked_modulus. sbind (apply (snd_modulus Hp w Hw)). intros r [Lr _]. sbind (apply (snd_quotient Hp w Hw)). intros q [Ny Eq].
  sbind (apply (snd_split_bounded Hp w Hw)). intros qb (_ & Lq & Bq & Vq). sbind (apply (snd_split_bounded Hp w Hw)). intros yb (_ & Ly & By & Vy). apply sound_ret.
  pose proof (bin_val_bound w qb Bq) as Rq. pose proof (bin_val_bound w yb By) as Ry. rewrite Lq in Rq. rewrite Ly in Ry. rewrite <- Vq in Rq. rewrite <- Vy in Ry.
  pose proof (evi Hp w r) as Ir. pose proof (evi Hp w x) as Ix. unfold infield in Ir, Ix. split; [lia|].
  rewrite (ev_sub_mod Hp) in Eq. assert (E : ev w x = ev w q * ev w y + ev w r).
  { rewrite <- (Z.mod_small (ev w q * ev w y + ev w r) order) by (apply (no_wrap k); lia). rewrite <- Zplus_mod_idemp_l, Eq, Zplus_mod_idemp_l.
    replace (ev w x - ev w r + ev w r) with (ev w x) by ring. symmetry. apply Z.mod_small, Ix. }
  apply (Z.mod_unique_pos _ _ (ev w q)); lia.
Qed.
Lemma cmpl_checked_modulus D P s k x y a b : (k + k < max_bits)%nat -> has s x a -> has s y b -> 0 < b < 2 ^ Z.of_nat k -> a < 2 ^ Z.of_nat k ->
  comp D P s (checked_modulus k x y) (done P (fun r s' => has s' r (a mod b))).
Proof using Hp H4.
  intros Hk Hx Hy Hb Ha. pose proof (has_infield Hp _ _ _ Hx) as Ia. pose proof (has_infield Hp _ _ _ Hy) as Ib. unfold infield in Ia, Ib. unfold checked_modulus.
  cbind (apply (cmpl_modulus Hp H2); [exact H4|exact Hx|exact Hy|lia]). intros r P1 s1 X1 G1 [-> Hr]. carry.
  cbind (apply (cmpl_quotient Hp H2); [apply (has_sub Hp); [exact Hx|exact Hr]|exact Hy|lia]). intros q P2 s2 X2 G2 [-> Hq]. carry.
  assert (Ha' : 0 <= a / b <= a) by (split; [apply Z.div_pos; lia|apply Z.div_le_upper_bound; nia]).
  assert (E : (((a - a mod b) mod order) * finvv b) mod order = a / b).
  { rewrite Zmult_mod_idemp_l. replace (a - a mod b) with (a / b * b) by (pose proof (Z.div_mod a b ltac:(lia)); nia). rewrite <- Z.mul_assoc, <- Zmult_mod_idemp_r.
    pose proof (finvv_correct Hp b Ib ltac:(lia)) as C. unfold fmul in C. rewrite C, Z.mul_1_r. apply Z.mod_small. lia. }
  rewrite E in Hq.
  cbind (apply (cmpl_split_bounded Hp); [exact Hq|lia|lia]). intros qb P3 s3 X3 G3 [-> _]. carry.
  cbind (apply (cmpl_split_bounded Hp); [exact Hy|lia|lia]). intros yb P4 s4 X4 G4 [-> _]. carry. apply comp_ret. split; [reflexivity|exact Hr].
Qed.
End Proofs.

(** ** C109 *)
(** The results that satisfying assignments can give are exactly the right ones, *)
Theorem C109_exact : forall (F : Field), prime order -> (4 <= max_bits)%nat -> forall x y,
  allows_exactly (checked_inverse_or_zero x) (uses [x]) ev
    (fun w z => 0 <= z < order /\ if ev w x =? 0 then z = 0 else (ev w x * z) mod order = 1) /\
  allows_exactly (checked_quotient x y) (uses [x; y]) ev (fun w z => 0 <= z < order /\ (z * ev w y) mod order = ev w x) /\
  allows_exactly (checked_lt x y) (uses [x; y]) ev (fun w z => z = if ev w x <? ev w y then 1 else 0) /\
  allows_exactly (checked_le x y) (uses [x; y]) ev (fun w z => z = if ev w x <=? ev w y then 1 else 0) /\
  asserts_exactly (assert_at_most x y) (uses [x; y]) (fun w => ev w x <= ev w y) /\
  forall l, l <> [] -> allows_exactly (checked_sort l) (uses l) (fun w r => map (ev w) r)
    (fun w out => Permutation (map (ev w) l) out /\ StronglySorted Z.le out).
Proof.
  intros F Hp H4 x y. pose proof (prime_ge2 Hp) as Hord. pose proof (max_bits_odd H4) as H2.
  split; [|split; [|split; [|split; [|split]]]].
  - assert (Q : forall a z, infield a -> ((0 <= z < order /\ if a =? 0 then z = 0 else (a * z) mod order = 1) <-> z = finvv a)).
    { intros a z Ia. split.
      - intros [Iz E]. destruct (Z.eqb_spec a 0) as [->|Nz]; [exact E|]. rewrite (inv_unique Hp a z) by assumption. symmetry.
        apply (inv_unique Hp); [exact Ia|apply (finvv_infield Hp); exact Hord|exact Nz|apply (finvv_correct Hp); assumption].
      - intros ->. split; [apply (finvv_infield Hp); exact Hord|]. destruct (Z.eqb_spec a 0) as [->|Nz]; [reflexivity|]. apply (finvv_correct Hp); assumption. }
    destruct (exact_det (checked_inverse_or_zero x) (uses [x]) (fun w => finvv (ev w x))) as [A C].
    + intros w Hw _. apply (snd_checked_inverse Hp H4 w Hw).
    + intros s G U. apply csat_comp; [unfold checked_inverse_or_zero; local|]. apply (cmpl_checked_inverse Hp H4). has_u.
    + split; [intros b r b' w E Hw Hs U; apply Q; [apply (infield_ev Hp)|exact (A b r b' w E Hw Hs U)]|].
      intros z b w Wb Hw S [U O]. apply (C z b w Wb Hw S). split; [exact U|]. apply Q; [apply (infield_ev Hp)|exact O].
  - split.
    + intros b r b' w E Hw Hs _. split; [apply (infield_ev Hp)|]. exact (snd_checked_quotient Hp H4 w Hw x y b r b' E Hs).
    + intro z. apply to_sat_call. intros s G [U [Iz E]]. unfold checked_quotient.
      assert (Hx : has s x (ev (wt s) x)) by has_u. assert (Hy : has s y (ev (wt s) y)) by has_u.
      fbind (apply (fs_quotient_unsafe Hp) with (c := z); exact Iz). intros q s1 X1 G1 Hq. pose proof X1 as X1'. carry.
      fbind (eapply csat_assert_product; [exact Hq|exact Hy|exact Hx|symmetry; exact E]). intros _ s2 X2 G2 ->. apply csat_ret. exact (proj2 Hq).
  - apply exact_det; [intros w Hw _; apply (snd_checked_lt Hp H4 w Hw)|]. intros s G U. apply csat_comp; [unfold checked_lt, lt; local|]. apply (cmpl_checked_lt Hp H4); has_u.
  - apply exact_det; [intros w Hw _; apply (snd_checked_le Hp H4 w Hw)|]. intros s G U. apply csat_comp; [unfold checked_le, checked_lt, lt; local|]. apply (cmpl_checked_le Hp H4); has_u.
  - apply exact_assert; [intros w Hw _; apply (snd_at_most Hp H4 w Hw)|]. intros s G U L. apply csat_comp; [apply local_at_most|]. eapply (cmpl_at_most Hp H4); [has_u|has_u|exact L].
  - intros l Hne. split.
    + intros b r b' w E Hw Hs _. destruct (snd_checked_sort Hp H4 w Hw l b r b' E Hs) as [P S]. split; [exact P|]. apply Sorted_StronglySorted; [intros a c d; lia|exact S].
    + intro out. apply to_sat_call. intros s G [U [HP HS]]. unfold checked_sort.
      fbind (eapply (fs_sort_ascending Hp H2); [exact H4|exact Hne|apply uses_hasl, U|exact HP]). intros r s1 X1 G1 Hr.
      fbind (apply csat_comp; [apply local_ascending|]; eapply (cmpl_ascending Hp H4); [exact Hr|apply StronglySorted_Sorted, HS]). intros _ s2 X2 G2 _.
      apply csat_ret. eapply hasl_ext in Hr; [|exact X2]. exact (proj1 (hasl_map_ev _ _ _ Hr)).
Qed.
Print Assumptions C109_exact.

Local Notation wv vals := (ev (input_witness vals)).
(** and executing the circuits on inputs computes them and satisfies the added assertions. *)
Theorem C109_honest : forall (F : Field), prime order -> (4 <= max_bits)%nat -> forall vals x y, good_inputs vals -> on_inputs vals x -> on_inputs vals y ->
  let a := wv vals x in let b := wv vals y in
  runs vals (checked_inverse_or_zero x) (fun r v => exists z, e_evaluate v r = Ok z /\ 0 <= z < order /\ if a =? 0 then z = 0 else (a * z) mod order = 1) /\
  (b <> 0 -> runs vals (checked_quotient x y) (fun r v => exists z, e_evaluate v r = Ok z /\ 0 <= z < order /\ (z * b) mod order = a)) /\
  runs vals (checked_lt x y) (fun r v => e_evaluate v r = Ok (if a <? b then 1 else 0)) /\
  runs vals (checked_le x y) (fun r v => e_evaluate v r = Ok (if a <=? b then 1 else 0)) /\
  (a <= b -> runs vals (assert_at_most x y) (fun _ _ => True)) /\
  forall l, on_inputs_all vals l -> l <> [] -> exists out, Permutation (map (wv vals) l) out /\ StronglySorted Z.le out /\
    runs vals (checked_sort l) (fun r v => omap (e_evaluate v) r = Ok out).
Proof.
  intros F Hp H4 vals x y Hv Hx Hy a b. pose proof (prime_ge2 Hp) as Hord. pose proof (max_bits_odd H4) as H2.
  pose proof (has_input vals x Hx) as Ix. pose proof (has_input vals y Hy) as Iy. fold a in Ix. fold b in Iy.
  pose proof (has_infield Hp _ _ _ Ix) as Ia. pose proof (has_infield Hp _ _ _ Iy) as Ib.
  split; [|split; [|split; [|split; [|split]]]].
  - eapply (to_runs Hp); [exact Hv|apply (cmpl_checked_inverse Hp H4); exact Ix|]. cbv beta. intros r s v Hr _ G. eexists. split; [apply (has_run Hp s); eassumption|].
    split; [apply (finvv_infield Hp); exact Hord|]. destruct (Z.eqb_spec a 0) as [->|Nz]; [reflexivity|]. apply (finvv_correct Hp); assumption.
  - intro Nz. assert (E : (((a * finvv b) mod order) * b) mod order = a).
    { rewrite Zmult_mod_idemp_l, <- Z.mul_assoc, (Z.mul_comm (finvv b)), <- Zmult_mod_idemp_r. pose proof (finvv_correct Hp b Ib Nz) as C. unfold fmul in C. rewrite C, Z.mul_1_r. apply Z.mod_small, Ia. }
    eapply (to_runs Hp) with (Q := fun r s => has s r ((a * finvv b) mod order)); [exact Hv| |].
    + unfold checked_quotient. cbind (apply (cmpl_quotient_unsafe Hp H2); [exact Ix|exact Iy|exact Nz]). intros q P1 s1 X1 G1 [-> Hq]. carry.
      cbind (eapply comp_assert_product; [exact Hq|exact Iy|exact Ix|symmetry; exact E]). intros _ P2 s2 X2 G2 [-> ->]. apply comp_ret. split; [reflexivity|exact Hq].
    + cbv beta. intros r s v Hr _ G. eexists. split; [apply (has_run Hp s); eassumption|]. split; [apply Z.mod_pos_bound; lia|exact E].
  - apply (to_runs1 Hp); [exact Hv|]. apply (cmpl_checked_lt Hp H4); assumption.
  - apply (to_runs1 Hp); [exact Hv|]. apply (cmpl_checked_le Hp H4); assumption.
  - intro L. apply (to_runs0 Hp); [exact Hv|]. eapply (cmpl_at_most Hp H4); eassumption.
  - intros l Hl Hne. exists (sort_items (map (wv vals) l)). split; [apply sort_items_perm|]. split; [apply sort_items_sorted|]. apply (to_runsl Hp); [exact Hv|].
    unfold checked_sort. cbind (apply (cmpl_sort_ascending Hp H2); [exact H4|exact Hne|apply hasl_input, Hl]). intros r P1 s1 X1 G1 [-> Hr].
    cbind (eapply (cmpl_ascending Hp H4); [exact Hr|apply StronglySorted_Sorted, sort_items_sorted]). intros _ P2 s2 X2 G2 [-> _]. apply comp_ret. split; [reflexivity|].
    eapply hasl_ext; [exact X2|exact Hr].
Qed.
Print Assumptions C109_honest.

(** Remainders and divisibility of numbers of at most k bits, with 2 k less than the bits of the field. *)
Theorem C109_remainders : forall (F : Field), prime order -> (4 <= max_bits)%nat -> forall k x y, (k + k < max_bits)%nat ->
  let small := fun n w => uses [x; y] n w /\ 0 < ev w y < 2 ^ Z.of_nat k /\ ev w x < 2 ^ Z.of_nat k in
  sound_call (checked_modulus k x y) (fun w r => 0 < ev w y < 2 ^ Z.of_nat k /\ ev w r = ev w x mod ev w y) /\
  allows_exactly (checked_modulus k x y) small ev (fun w z => z = ev w x mod ev w y) /\
  sound_call (checked_divides k y x) (fun w r => ev w r = if ev w x mod ev w y =? 0 then 1 else 0) /\
  allows_exactly (checked_divides k y x) small ev (fun w z => z = if ev w x mod ev w y =? 0 then 1 else 0) /\
  forall vals, good_inputs vals -> on_inputs vals x -> on_inputs vals y -> 0 < wv vals y < 2 ^ Z.of_nat k -> wv vals x < 2 ^ Z.of_nat k ->
  runs vals (checked_modulus k x y) (fun r v => e_evaluate v r = Ok (wv vals x mod wv vals y)) /\
  runs vals (checked_divides k y x) (fun r v => e_evaluate v r = Ok (if wv vals x mod wv vals y =? 0 then 1 else 0)).
Proof.
  intros F Hp H4 k x y Hk small. pose proof (max_bits_odd H4) as H2.
  assert (SD : forall w, wf_witness w -> sound w (checked_divides k y x) (fun r => ev w r = if ev w x mod ev w y =? 0 then 1 else 0)).
  { intros w Hw. unfold checked_divides. eapply sound_bind; [apply (snd_checked_modulus Hp H4 w Hw); exact Hk|intro; mono|]. cbv beta. intros r [_ E].
    rewrite <- E. apply (snd_zero Hp w Hw). }
  assert (CD : forall D P s a b, has s x a -> has s y b -> 0 < b < 2 ^ Z.of_nat k -> a < 2 ^ Z.of_nat k ->
    comp D P s (checked_divides k y x) (done P (fun r s' => has s' r (if a mod b =? 0 then 1 else 0)))).
  { intros D P s a b Hx Hy Hb Ha. unfold checked_divides. cbind (apply (cmpl_checked_modulus Hp H4); [exact Hk|exact Hx|exact Hy|exact Hb|exact Ha]).
    intros r P1 s1 X1 G1 [-> Hr]. apply (cmpl_zero Hp H2). exact Hr. }
  split; [|split; [|split; [|split]]].
  - apply to_call. intros w Hw. apply (snd_checked_modulus Hp H4 w Hw). exact Hk.
  - apply exact_det.
    + intros w Hw _. eapply sound_weaken; [apply (snd_checked_modulus Hp H4 w Hw); exact Hk|]. cbv beta. tauto.
    + intros s G (U & Hy & Hx). apply csat_comp; [unfold checked_modulus; local|]. apply (cmpl_checked_modulus Hp H4); [exact Hk|has_u|has_u|exact Hy|exact Hx].
  - apply to_call. exact SD.
  - apply exact_det.
    + intros w Hw _. apply SD, Hw.
    + intros s G (U & Hy & Hx). apply csat_comp; [unfold checked_divides, checked_modulus; local|]. apply CD; [has_u|has_u|exact Hy|exact Hx].
  - intros vals Hv Ix Iy Hy Hx. split; apply (to_runs1 Hp); try exact Hv.
    + apply (cmpl_checked_modulus Hp H4); [exact Hk|apply has_input; exact Ix|apply has_input; exact Iy|exact Hy|exact Hx].
    + apply CD; [apply has_input; exact Ix|apply has_input; exact Iy|exact Hy|exact Hx].
Qed.
Print Assumptions C109_remainders.

(** Over the integers modulo 11 and 97 the hypotheses hold, and the circuits give: *)
Example C109_example :
  (let F : Field := F11 in prime order /\ (4 <= max_bits)%nat /\
    demo [0] (checked_inverse_or_zero (e_wire 1)) (fun r => [r]) = Ok (true, [0]) /\
    demo [10; 5] (checked_lt (e_wire 1) (e_wire 2)) (fun r => [r]) = Ok (true, [0])) /\
  (let F : Field := F97 in prime order /\ (3 + 3 < max_bits)%nat /\ demo [7; 3] (checked_modulus 3 (e_wire 1) (e_wire 2)) (fun r => [r]) = Ok (true, [1])).
Proof.
  split; intro F; [split; [exact prime_F11|]; split; [vm_compute; lia|]; split; vm_compute; reflexivity|].
  split; [exact prime_F97|]. split; [vm_compute; lia|]. vm_compute. reflexivity.
Qed.
