(** C101: closed forms of Rescue and Poseidon as implemented: Rescue is linear, Poseidon is a monomial in every lane. *)
From Coq Require Import ZArith List Bool Arith Lia Znumtheory.
From Verif Require Import Base FieldM FieldP ExprM BuilderM CryptoM Spec SpecCrypto ExprP MonoP LocalP SoundP HonestP ExecP CompleteP CryptoP SpongeP MatrixP
  Demo PropLib ArithP PropsCrypto PropsMix PropsCollide.
Import ListNotations.
Open Scope Z_scope.

(** Linear combinations of lists, and linear functions on them. *)
Definition lin {F : Field} (a b : Z) (l1 l2 : list Z) : list Z := map (fun xy => (a * fst xy + b * snd xy) mod order) (combine l1 l2).
Definition linear_on {F : Field} (n : nat) (p : list Z -> list Z) : Prop :=
  forall a b l1 l2, state n l1 -> state n l2 -> p (lin a b l1 l2) = lin a b (p l1) (p l2).

Section Lin.
Context {F : Field} (Hp : prime order).

Lemma lin_nth a b : forall l1 l2 i, nth_error (lin a b l1 l2) i =
  match nth_error l1 i, nth_error l2 i with Some x, Some y => Some ((a * x + b * y) mod order) | _, _ => None end.
Proof using.
  unfold lin. induction l1 as [|x l1 IH]; intros [|y l2] [|i]; cbn [combine map nth_error fst snd]; try reflexivity.
  - destruct (nth_error l1 i); reflexivity.
  - apply IH.
Qed.
Lemma lin_length a b l1 l2 : length l1 = length l2 -> length (lin a b l1 l2) = length l1.
Proof using. intro L. unfold lin. rewrite map_length, combine_length. lia. Qed.
Lemma lin_app a b : forall l1 l2 m1 m2, length l1 = length l2 -> lin a b (l1 ++ m1) (l2 ++ m2) = lin a b l1 l2 ++ lin a b m1 m2.
Proof using.
  unfold lin. induction l1 as [|x l1 IH]; intros [|y l2] m1 m2 L; try discriminate; [reflexivity|]. injection L as L.
  cbn [app combine map]. f_equal. apply IH, L.
Qed.
Lemma lin_firstn a b n l1 l2 : firstn n (lin a b l1 l2) = lin a b (firstn n l1) (firstn n l2).
Proof using. unfold lin. rewrite firstn_map, combine_firstn. reflexivity. Qed.
Lemma lin_skipn a b : forall n l1 l2, skipn n (lin a b l1 l2) = lin a b (skipn n l1) (skipn n l2).
Proof using.
  unfold lin. induction n as [|n IH]; intros [|x l1] [|y l2]; cbn [skipn combine map]; try reflexivity; [|apply IH].
  destruct (skipn n l1); reflexivity.
Qed.
Lemma lin_zero a b n : lin a b (repeat 0 n) (repeat 0 n) = repeat 0 n.
Proof using. unfold lin. induction n; cbn [repeat combine map fst snd]; [reflexivity|]. f_equal; [|assumption]. rewrite !Z.mul_0_r. apply Zmod_0_l. Qed.

Notation addl l1 l2 := (map (fun xy => (fst xy + snd xy) mod order) (combine l1 l2)).
Lemma lin_add a b : forall s1 s2 b1 b2, length s1 = length s2 -> length b1 = length b2 ->
  addl (lin a b s1 s2) (lin a b b1 b2) = lin a b (addl s1 b1) (addl s2 b2).
Proof using.
  unfold lin. induction s1 as [|x s1 IH]; intros [|y s2] [|u b1] [|v b2] L1 L2; try discriminate; try reflexivity.
  injection L1 as L1. injection L2 as L2. cbn [combine map fst snd]. f_equal; [|apply IH; assumption].
  rewrite <- Zplus_mod. rewrite (Zplus_mod (a * _)), !Zmult_mod_idemp_r, <- Zplus_mod. f_equal. ring.
Qed.

Lemma blocks_lin a b r : forall fuel l1 l2, length l1 = length l2 ->
  blocks_fuel fuel r (lin a b l1 l2) = map (fun xy => lin a b (fst xy) (snd xy)) (combine (blocks_fuel fuel r l1) (blocks_fuel fuel r l2)).
Proof using.
  induction fuel as [|f IH]; intros l1 l2 L; [reflexivity|]. destruct l1 as [|x l1], l2 as [|y l2]; try discriminate; [reflexivity|].
  cbn [blocks_fuel]. change (lin a b (x :: l1) (y :: l2)) with ((a * x + b * y) mod order :: lin a b l1 l2) at 1. cbn iota.
  cbn [combine map fst snd]. f_equal.
  - rewrite lin_app by (rewrite !firstn_length; lia). rewrite lin_firstn, <- L, lin_zero, lin_length by exact L. reflexivity.
  - rewrite lin_skipn. apply IH. rewrite !skipn_length, L. reflexivity.
Qed.
Lemma blocks_fuel_count r : forall fuel l1 l2, length l1 = length l2 -> length (blocks_fuel fuel r l1) = length (blocks_fuel fuel r l2).
Proof using.
  induction fuel as [|f IH]; intros [|x l1] [|y l2] L; try discriminate; try reflexivity. cbn [blocks_fuel length]. f_equal. apply IH.
  rewrite !skipn_length, L. reflexivity.
Qed.

Variables (p : list Z -> list Z) (r c : nat).
Hypothesis Hcl : closed (r + c) p.
Hypothesis Hlin : linear_on (r + c) p.

Lemma infield_mod x : 0 <= x mod order < order.
Proof using Hp. apply Z.mod_pos_bound. pose proof (prime_ge2 Hp). lia. Qed.
Lemma absorb_in st b : state (r + c) st -> length b = r -> state (r + c) (addl (firstn r st) b ++ skipn r st).
Proof using Hp.
  intros [L I] Lb. split.
  - rewrite app_length, map_length, combine_length, firstn_length, skipn_length. lia.
  - apply Forall_app. split; [|rewrite <- (firstn_skipn r st) in I; apply Forall_app in I; apply I]. apply Forall_map, Forall_forall. intros x _. apply infield_mod.
Qed.
Lemma absorb_lin a b st1 st2 b1 b2 : state (r + c) st1 -> state (r + c) st2 -> length b1 = r -> length b2 = r ->
  absorb p r (lin a b st1 st2) (lin a b b1 b2) = lin a b (absorb p r st1 b1) (absorb p r st2 b2).
Proof using Hp Hlin.
  intros S1 S2 L1 L2. unfold absorb. rewrite lin_firstn, lin_skipn, lin_add by (rewrite ?firstn_length; destruct S1, S2; lia).
  rewrite <- Hlin by (apply absorb_in; assumption). f_equal. symmetry. apply lin_app.
  rewrite !map_length, !combine_length, !firstn_length. destruct S1, S2. lia.
Qed.
Lemma fold_lin a b : forall bs1 bs2 st1 st2, length bs1 = length bs2 -> Forall (fun b => length b = r) bs1 -> Forall (fun b => length b = r) bs2 ->
  state (r + c) st1 -> state (r + c) st2 ->
  fold_left (absorb p r) (map (fun xy => lin a b (fst xy) (snd xy)) (combine bs1 bs2)) (lin a b st1 st2) =
  lin a b (fold_left (absorb p r) bs1 st1) (fold_left (absorb p r) bs2 st2) /\
  state (r + c) (fold_left (absorb p r) bs1 st1) /\ state (r + c) (fold_left (absorb p r) bs2 st2).
Proof using Hp Hcl Hlin.
  induction bs1 as [|b1 bs1 IH]; intros [|b2 bs2] st1 st2 L B1 B2 S1 S2; try discriminate; [auto|]. injection L as L.
  apply Forall_cons_iff in B1. apply Forall_cons_iff in B2. cbn [combine map fold_left fst snd]. rewrite absorb_lin by tauto.
  apply IH; try tauto; apply Hcl, absorb_in; tauto.
Qed.
Lemma stream_lin a b : forall k st1 st2, state (r + c) st1 -> state (r + c) st2 ->
  stream p r k (lin a b st1 st2) = lin a b (stream p r k st1) (stream p r k st2).
Proof using Hcl Hlin.
  induction k as [|k IH]; intros st1 st2 S1 S2; [reflexivity|]. cbn [stream].
  rewrite lin_app by (rewrite !firstn_length; destruct S1, S2; lia). rewrite lin_firstn, Hlin, IH by (try apply Hcl; assumption). reflexivity.
Qed.
Lemma sponge_lin a b l1 l2 n : length l1 = length l2 -> sponge_fun p r c (lin a b l1 l2) n = lin a b (sponge_fun p r c l1 n) (sponge_fun p r c l2 n).
Proof using Hp Hcl Hlin.
  intro L. unfold sponge_fun, absorb_all, padded_blocks. rewrite lin_length by exact L. rewrite blocks_lin by exact L. rewrite <- L.
  assert (Z0 : state (r + c) (repeat 0 (r + c))).
  { split; [apply repeat_length|]. apply Forall_forall. intros x Ix. apply repeat_spec in Ix. subst x. pose proof (prime_ge2 Hp). lia. }
  rewrite <- (lin_zero a b (r + c)) at 1.
  destruct (fold_lin a b (blocks_fuel (length l1) r l1) (blocks_fuel (length l1) r l2) _ _ (blocks_fuel_count r _ _ _ L) (blocks_fuel_lengths r _ _)
    (blocks_fuel_lengths r _ _) Z0 Z0) as (E & S1 & S2). rewrite E, stream_lin, lin_firstn by assumption. reflexivity.
Qed.
End Lin.

(** ** Rescue: x^alpha and its inverse cancel, so every lane is multiplied by a constant. *)
Section Rescue.
Context {F : Field} (Hp : prime order).
Variables (alpha : Z) (g : Z -> Z).
Hypothesis Ha : 2 <= alpha < order.
Hypothesis Hg : Z.gcd (order - 1) alpha = 1.
Hypothesis G : forall a, 0 <= a < order -> 0 <= g a < order /\ (g a ^ alpha) mod order = a.
Notation f := (fun a => (a ^ alpha) mod order).

Lemma root_scale x k : 0 <= x < order -> g ((((x ^ alpha) mod order) * k) mod order) = (x * g (k mod order)) mod order.
Proof using Hp Ha Hg G.
  intro Ix. pose proof (prime_ge2 Hp). destruct (power_permutes Hp alpha Ha Hg) as [(_ & I & _) _].
  apply I; [apply G, Z.mod_pos_bound; lia|apply Z.mod_pos_bound; lia|]. cbv beta. rewrite (proj2 (G _ ltac:(apply Z.mod_pos_bound; lia))).
  rewrite (pow_mod_l Hp). rewrite Z.pow_mul_l, <- (Zmult_mod_idemp_r (g (k mod order) ^ alpha)), (proj2 (G (k mod order) ltac:(apply Z.mod_pos_bound; lia))).
  rewrite Zmult_mod_idemp_r, Zmult_mod_idemp_l. reflexivity.
Qed.
Lemma rescue_closed_lane : forall (rs : list nat) mds l i x row, nth_error l i = Some x -> nth_error mds i = Some row -> 0 <= x < order ->
  nth_error (fold_left (fun cur (_ : nat) => row_scale mds (map g (row_scale mds (map f cur)))) rs l) i =
  Some ((x * (g (row_sum row mod order) * row_sum row) ^ Z.of_nat (length rs)) mod order).
Proof using Hp Ha Hg G.
  pose proof (prime_ge2 Hp) as H2. induction rs as [|r rs IH]; intros mds l i x row E1 E2 Ix; cbn [fold_left length].
  - rewrite E1. f_equal. rewrite Z.pow_0_r, Z.mul_1_r, Z.mod_small by exact Ix. reflexivity.
  - rewrite (IH mds _ i ((x * (g (row_sum row mod order) * row_sum row)) mod order) row); [|..|apply Z.mod_pos_bound; lia].
    + f_equal. rewrite Zmult_mod_idemp_l, Nat2Z.inj_succ, Z.pow_succ_r by lia. f_equal. ring.
    + rewrite row_scale_nth, E2, nth_error_map, row_scale_nth, E2, nth_error_map, E1. cbn [option_map]. f_equal.
      rewrite root_scale by exact Ix. rewrite Zmult_mod_idemp_l. f_equal. ring.
    + exact E2.
Qed.
Lemma rescue_linear rounds mds : linear_on (length mds) (rescue_fun f g rounds mds).
Proof using Hp Ha Hg G.
  intros a b l1 l2 [L1 I1] [L2 I2]. apply list_ext. intro i. rewrite lin_nth.
  destruct (nth_error mds i) as [row|] eqn:Er.
  - assert (Li : (i < length mds)%nat) by (apply nth_error_Some; congruence).
    destruct (nth_error l1 i) as [x|] eqn:E1; [|apply nth_error_None in E1; lia]. destruct (nth_error l2 i) as [y|] eqn:E2; [|apply nth_error_None in E2; lia].
    unfold rescue_fun.
    rewrite (rescue_closed_lane _ mds l1 i x row E1 Er), (rescue_closed_lane _ mds l2 i y row E2 Er);
      [|exact (proj1 (Forall_forall _ _) I2 y (nth_error_In _ _ E2))|exact (proj1 (Forall_forall _ _) I1 x (nth_error_In _ _ E1))].
    rewrite (rescue_closed_lane _ mds (lin a b l1 l2) i ((a * x + b * y) mod order) row); [|rewrite lin_nth, E1, E2; reflexivity|exact Er|apply infield_mod, Hp].
    f_equal. set (C := _ ^ _). rewrite Zmult_mod_idemp_l, (Zplus_mod (a * _)), !Zmult_mod_idemp_r, <- Zplus_mod. f_equal. ring.
  - apply nth_error_None in Er.
    rewrite !(proj2 (nth_error_None _ _)); [reflexivity|rewrite rescue_fun_length; lia|rewrite rescue_fun_length; rewrite ?lin_length; lia].
Qed.
End Rescue.

(** The value of the Rescue gadget in every satisfying assignment: lane i times a constant. *)
Theorem C101_rescue_value : forall (F : Field), prime order -> forall q, 2 <= res_alpha q < order -> Z.gcd (order - 1) (res_alpha q) = 1 ->
  forall i row, nth_error (res_mds q) i = Some row ->
  exists root, 0 <= root < order /\ (root ^ res_alpha q) mod order = row_sum row mod order /\
  forall xs x, nth_error xs i = Some x -> sound_call (rescue_permute q xs) (fun w ys =>
    exists y, nth_error ys i = Some y /\ ev w y = (ev w x * (root * row_sum row) ^ Z.of_nat (res_rounds q)) mod order).
Proof.
  intros F Hp q Ha Hg i row Er. pose proof (prime_ge2 Hp) as H2. destruct (C49_rescue_value F Hp q Ha Hg) as (g & G & S & _).
  exists (g (row_sum row mod order)). split; [apply G, Z.mod_pos_bound; lia|]. split; [apply (G (row_sum row mod order)), Z.mod_pos_bound; lia|].
  intros xs x Ex b ys b' w E Hw Hs. pose proof (S xs b ys b' w E Hw Hs) as V. apply (f_equal (fun l => nth_error l i)) in V. rewrite nth_error_map in V.
  unfold rescue_fun in V. rewrite (rescue_closed_lane Hp (res_alpha q) g Ha Hg G _ (res_mds q) _ i (ev w x) row) in V;
    [|rewrite nth_error_map, Ex; reflexivity|exact Er|apply (ev_field Hp)]. rewrite seq_length in V.
  destruct (nth_error ys i) as [y|]; [|discriminate]. exists y. split; [reflexivity|]. cbn [option_map] in V. injection V as V. exact V.
Qed.
Print Assumptions C101_rescue_value.

(** The Rescue permutation and every sponge over it are linear: one function gives the outputs in every satisfying assignment and in
    every execution, and it maps linear combinations of inputs of the same length to the same combinations of the outputs. *)
Theorem C101_rescue_sponge_linear : forall (F : Field), prime order -> forall q r c, 2 <= res_alpha q < order -> Z.gcd (order - 1) (res_alpha q) = 1 ->
  (0 < r)%nat -> length (res_mds q) = (r + c)%nat ->
  exists H : list Z -> nat -> list Z,
  (forall xs n, sound_call (sponge_evaluate (mkSponge (rescue_mp q) r c) xs n) (fun w ys => map (ev w) ys = H (map (ev w) xs) n)) /\
  (forall vals xs n, good_inputs vals -> on_inputs_all vals xs ->
     runs vals (sponge_evaluate (mkSponge (rescue_mp q) r c) xs n) (fun ys v => omap (e_evaluate v) ys = Ok (H (map (wv vals) xs) n))) /\
  (forall a b l1 l2 n, length l1 = length l2 -> H (lin a b l1 l2) n = lin a b (H l1 n) (H l2 n)).
Proof.
  intros F Hp q r c Ha Hg R Lm. pose proof (prime_ge2 Hp) as H2. destruct (rescue_sboxes Hp q Ha Hg) as (g & G & C1 & C2 & C3 & C4).
  set (p := rescue_fun (fun a => (a ^ res_alpha q) mod order) g (res_rounds q) (res_mds q)).
  exists (sponge_fun p r c). split; [|split].
  - intros xs n b ys b' w E Hw Hs. refine (proj2 (C47_value F Hp (mkSponge (rescue_mp q) r c) p xs n _ b ys b' w E Hw Hs)).
    split; [intro; apply mono_rescue|]. intros zs _. apply to_call. intros w' Hw'.
    apply (snd_rescue Hp); [exact Hw'| |]; intro; [apply (computes1_snd _ _ _ _ Hw' C1)|apply (computes1_snd _ _ _ _ Hw' C2)].
  - intros vals xs n Hv Hx. apply (to_runsl Hp); [exact Hv|].
    apply (cmpl_sponge Hp (mkSponge (rescue_mp q) r c)); cbn [bitrate capacity sp_perm rescue_mp mp_permute]; [|exact R| |apply hasl_input, Hx].
    + intros l L. unfold p. rewrite rescue_fun_length; lia.
    + intros D P s zs l Lx Hl. apply (cmpl_rescue Hp); [exact C3|exact C4|exact Hl].
  - intros a b l1 l2 n L. apply (sponge_lin Hp); [| |exact L].
    + intros l [Ll Il]. split; [unfold p; rewrite rescue_fun_length; lia|]. apply Forall_forall. intros x Ix. apply In_nth_error in Ix. destruct Ix as [i Ei].
      assert (Li : (i < length (res_mds q))%nat) by (rewrite <- (rescue_fun_length (fun a => (a ^ res_alpha q) mod order) g (res_rounds q) (res_mds q) l ltac:(lia)); apply nth_error_Some; unfold p in Ei; congruence).
      destruct (nth_error (res_mds q) i) as [row|] eqn:Er; [|apply nth_error_None in Er; lia]. destruct (nth_error l i) as [z|] eqn:El; [|apply nth_error_None in El; lia].
      unfold p, rescue_fun in Ei. rewrite (rescue_closed_lane Hp (res_alpha q) g Ha Hg) with (x := z) (row := row) in Ei; try assumption.
      * injection Ei as <-. apply infield_mod, Hp.
      * intros a0 I0. destruct (G a0 I0) as (A1 & _ & A2). split; [exact A1|exact A2].
      * exact (proj1 (Forall_forall _ _) Il z (nth_error_In _ _ El)).
    + unfold p. rewrite <- Lm. apply (rescue_linear Hp); try assumption. intros a0 I0. destruct (G a0 I0) as (A1 & _ & A2). split; [exact A1|exact A2].
Qed.
Print Assumptions C101_rescue_sponge_linear.

(** ** Poseidon: with the S-box x^e every lane is a constant times a power, with one factor e for every round that touches the lane. *)
Section Poseidon.
Context {F : Field} (Hp : prime order).
Variables (e : Z) (f : Z -> Z).
Hypothesis He : 0 <= e.
Hypothesis Hf : forall x, 0 <= x < order -> f x = (x ^ e) mod order.

Definition touched (full part i r : nat) : bool := (i =? 0)%nat || full_round full part r.
Lemma poseidon_closed_lane full part mds i row : nth_error mds i = Some row -> forall rs, exists K, forall l x, nth_error l i = Some x -> 0 <= x < order ->
  nth_error (fold_left (fun cur r => row_scale mds (if full_round full part r then map f cur else on_first f cur)) rs l) i =
  Some ((K * x ^ (e ^ Z.of_nat (length (filter (touched full part i) rs)))) mod order).
Proof using Hp He Hf.
  intro Er. pose proof (prime_ge2 Hp) as H2. induction rs as [|r rs [K IH]].
  - exists 1. intros l x Ex Ix. cbn [fold_left filter length]. rewrite Ex, Z.pow_0_r, Z.pow_1_r, Z.mul_1_l, Z.mod_small by exact Ix. reflexivity.
  - set (m := Z.of_nat (length (filter (touched full part i) rs))) in *. assert (Im : 0 <= e ^ m) by (apply Z.pow_nonneg; exact He).
    exists (K * row_sum row ^ (e ^ m)). intros l x Ex Ix. cbn [fold_left].
    assert (T : nth_error (if full_round full part r then map f l else on_first f l) i = Some (if touched full part i r then (x ^ e) mod order else x)).
    { unfold touched. destruct (full_round full part r); rewrite ?orb_true_r, ?orb_false_r.
      - rewrite nth_error_map, Ex. cbn [option_map]. rewrite Hf by exact Ix. reflexivity.
      - destruct l as [|h l]; [destruct i; discriminate|]. destruct i as [|i]; cbn [on_first nth_error Nat.eqb] in *; [|exact Ex]. injection Ex as ->. rewrite Hf by exact Ix. reflexivity. }
    set (y := if touched full part i r then (x ^ e) mod order else x) in *.
    rewrite (IH _ ((y * row_sum row) mod order)); [|rewrite row_scale_nth, Er, T; reflexivity|apply Z.mod_pos_bound; lia]. f_equal.
    rewrite <- Zmult_mod_idemp_r, (pow_mod_l Hp), Zmult_mod_idemp_r. rewrite Z.pow_mul_l. subst y. cbn [filter].
    destruct (touched full part i r).
    + cbn [length]. rewrite Nat2Z.inj_succ, Z.pow_succ_r by lia. fold m. rewrite Z.pow_mul_r by assumption.
      replace (K * (((x ^ e) mod order) ^ (e ^ m) * row_sum row ^ (e ^ m))) with (K * row_sum row ^ (e ^ m) * ((x ^ e) mod order) ^ (e ^ m)) by ring.
      rewrite <- Zmult_mod_idemp_r, (pow_mod_l Hp), Zmult_mod_idemp_r. reflexivity.
    + fold m. f_equal. ring.
Qed.
Lemma count_full full part i : (full mod 2 = 0)%nat ->
  length (filter (touched full part i) (seq 0 (full + part))) = if (i =? 0)%nat then (full + part)%nat else full.
Proof using.
  intro Ev. unfold touched. destruct (i =? 0)%nat; cbn [orb].
  - assert (A : forall l, filter (fun _ : nat => true) l = l) by (induction l as [|y l IHl]; cbn; congruence). rewrite A. apply seq_length.
  - assert (Hh : full = (full / 2 + full / 2)%nat) by (pose proof (Nat.div_mod full 2 ltac:(lia)); lia).
    set (h := (full / 2)%nat) in *.
    replace (seq 0 (full + part)) with (seq 0 h ++ seq h part ++ seq (h + part) h) by (rewrite <- !seq_app; f_equal; lia).
    assert (A : forall (P : nat -> bool) l, (forall x, In x l -> P x = true) -> filter P l = l).
    { intros P l. induction l as [|y l IHl]; intro HP; cbn; [reflexivity|]. rewrite (HP y (or_introl eq_refl)), IHl; auto with datatypes. }
    assert (B : forall (P : nat -> bool) l, (forall x, In x l -> P x = false) -> filter P l = []).
    { intros P l. induction l as [|y l IHl]; intro HP; cbn; [reflexivity|]. rewrite (HP y (or_introl eq_refl)), IHl; auto with datatypes. }
    rewrite !filter_app, (A _ (seq 0 h)), (B _ (seq h part)), (A _ (seq (h + part) h)).
    + rewrite !app_length, !seq_length. cbn [length]. lia.
    + intros x Ix. apply in_seq in Ix. unfold full_round. fold h. apply orb_true_iff. right. apply Nat.leb_le. lia.
    + intros x Ix. apply in_seq in Ix. unfold full_round. fold h. apply orb_false_iff. split; [apply Nat.ltb_ge|apply Nat.leb_gt]; lia.
    + intros x Ix. apply in_seq in Ix. unfold full_round. fold h. apply orb_true_iff. left. apply Nat.ltb_lt. lia.
Qed.
End Poseidon.

Definition sbox_exponent {F : Field} (sb : poseidon_sbox) : Z := match sb with Exponentiation3 => 3 | Exponentiation5 => 5 | Inverse => order - 2 end.
Lemma sbox_fun_power {F : Field} : prime order -> 2 < order -> forall sb x, 0 <= x < order -> sbox_fun sb x = (x ^ sbox_exponent sb) mod order.
Proof.
  intros Hp H2 [| |] x Ix; cbn [sbox_fun sbox_exponent]; try reflexivity. unfold finvv. destruct (Z.eqb_spec x 0) as [->|N].
  - rewrite Z.pow_0_l, Zmod_0_l by lia. reflexivity.
  - rewrite (fexp_spec Hp) by lia. reflexivity.
Qed.

Lemma sbox_exponent_pos {F : Field} : 2 < order -> forall sb, 0 <= sbox_exponent sb.
Proof. intros H2 [| |]; cbn; lia. Qed.
Lemma poseidon_lane_power {F : Field} : prime order -> 2 < order -> forall p, poseidon_ok p -> forall i, (i < pos_width p)%nat ->
  exists K, forall l x, nth_error l i = Some x -> 0 <= x < order ->
  nth_error (poseidon_fun (sbox_fun (pos_sbox p)) (pos_full p) (pos_partial p) (pos_mds p) l) i =
  Some ((K * x ^ (sbox_exponent (pos_sbox p) ^ Z.of_nat (if (i =? 0)%nat then pos_full p + pos_partial p else pos_full p))) mod order).
Proof.
  intros Hp H2 p (W & Lm & Ev & _) i Hi. destruct (nth_error (pos_mds p) i) as [row|] eqn:Er; [|apply nth_error_None in Er; lia].
  destruct (poseidon_closed_lane Hp _ _ (sbox_exponent_pos H2 (pos_sbox p)) (sbox_fun_power Hp H2 (pos_sbox p)) (pos_full p) (pos_partial p) (pos_mds p) i row Er
    (seq 0 (pos_full p + pos_partial p))) as (K & E). rewrite count_full in E by exact Ev. exists K. exact E.
Qed.

(** In every satisfying assignment, and in every execution: lane i of the output is K * x^(e^m), x being lane i of the input, where m is the
    number of full rounds, or of all rounds for the first lane. K depends only on the parameters. *)
Theorem C101_poseidon_value : forall (F : Field), prime order -> 2 < order -> forall p, poseidon_ok p -> forall i, (i < pos_width p)%nat ->
  let e := sbox_exponent (pos_sbox p) in let m := Z.of_nat (if (i =? 0)%nat then pos_full p + pos_partial p else pos_full p) in
  exists K,
  (pos_sbox p <> Inverse -> forall xs x, nth_error xs i = Some x ->
   sound_call (poseidon_permute p xs) (fun w ys => exists y, nth_error ys i = Some y /\ ev w y = (K * ev w x ^ (e ^ m)) mod order)) /\
  (forall vals xs x, good_inputs vals -> on_inputs_all vals xs -> length xs = pos_width p -> nth_error xs i = Some x ->
   runs vals (poseidon_permute p xs) (fun ys v => exists out, omap (e_evaluate v) ys = Ok out /\ nth_error out i = Some ((K * wv vals x ^ (e ^ m)) mod order))).
Proof.
  intros F Hp H2 p Hok i Hi e m. destruct (poseidon_lane_power Hp H2 p Hok i Hi) as (K & E). exists K. split.
  - intros Hs xs x Ex b ys b' w Eb Hw Hsat. pose proof (C49_poseidon_value F Hp p xs Hs b ys b' w Eb Hw Hsat) as V.
    apply (f_equal (fun l => nth_error l i)) in V. rewrite nth_error_map, (E _ (ev w x)) in V; [|rewrite nth_error_map, Ex; reflexivity|apply (ev_field Hp)].
    destruct (nth_error ys i) as [y|]; [|discriminate]. exists y. split; [reflexivity|]. cbn [option_map] in V. injection V as V. exact V.
  - intros vals xs x Hv Hx L Ex. eapply runs_weaken; [apply (C49_poseidon_runs F Hp H2 p vals xs Hok Hv Hx L)|]. cbv beta. intros ys v V. eexists. split; [exact V|].
    apply E; [rewrite nth_error_map, Ex; reflexivity|apply (ev_field Hp)].
Qed.
Print Assumptions C101_poseidon_value.

(** With the inverse S-box, the lanes after the first are linear as well. *)
Theorem C101_poseidon_inverse_linear : forall (F : Field), prime order -> 2 < order -> forall p, poseidon_ok p -> pos_sbox p = Inverse ->
  forall i, (0 < i < pos_width p)%nat -> exists K, forall vals xs x, good_inputs vals -> on_inputs_all vals xs -> length xs = pos_width p -> nth_error xs i = Some x ->
  runs vals (poseidon_permute p xs) (fun ys v => exists out, omap (e_evaluate v) ys = Ok out /\ nth_error out i = Some ((K * wv vals x) mod order)).
Proof.
  intros F Hp H2 p Hok Hs i Hi. destruct (C101_poseidon_value F Hp H2 p Hok i ltac:(lia)) as (K & _ & E). exists K.
  intros vals xs x Hv Hx L Ex. eapply runs_weaken; [apply (E vals xs x Hv Hx L Ex)|]. cbv beta. intros ys v (out & V & N). exists out. split; [exact V|]. rewrite N. f_equal.
  rewrite Hs. cbn [sbox_exponent]. destruct (Nat.eqb_spec i 0) as [->|_]; [lia|]. destruct Hok as (_ & _ & Ev & _).
  rewrite <- (Zmult_mod_idemp_r (_ ^ _)), <- (Zmult_mod_idemp_r (wv vals x)). f_equal. f_equal.
  assert (Hf : Z.of_nat (pos_full p) = 2 * Z.of_nat (pos_full p / 2)) by (pose proof (Nat.div_mod (pos_full p) 2 ltac:(lia)); lia).
  rewrite Hf, Z.pow_mul_r by lia. set (h := Z.of_nat (pos_full p / 2)). assert (Ih : 0 <= h) by (unfold h; lia). clearbody h. clear -Hp H2 Ih.
  assert (S2 : exists j, 0 <= j /\ (order - 2) ^ 2 = 1 + (order - 1) * j) by (exists (order - 3); split; [lia|ring]).
  assert (Sh : exists j, 0 <= j /\ ((order - 2) ^ 2) ^ h = 1 + (order - 1) * j).
  { revert h Ih. apply (Wf_Z.natlike_ind (fun h => exists j, 0 <= j /\ ((order - 2) ^ 2) ^ h = 1 + (order - 1) * j)).
    - exists 0. split; [lia|]. rewrite Z.pow_0_r. ring.
    - intros h Ih (j & Ij & E). destruct S2 as (j2 & Ij2 & E2). exists (j + j2 + (order - 1) * (j * j2)). split; [nia|]. rewrite Z.pow_succ_r by exact Ih. rewrite E, E2. ring. }
  destruct Sh as (j & Ij & ->). apply (fermat_exp Hp). exact Ij.
Qed.
Print Assumptions C101_poseidon_inverse_linear.

(** Consequently products of inputs can be recognised from the outputs. *)
Theorem C101_poseidon_multiplicative : forall (F : Field), prime order -> 2 < order -> forall p, poseidon_ok p -> forall l1 l2,
  state (pos_width p) l1 -> state (pos_width p) l2 ->
  let P := poseidon_fun (sbox_fun (pos_sbox p)) (pos_full p) (pos_partial p) (pos_mds p) in
  let mul a b := map (fun xy => (fst xy * snd xy) mod order) (combine a b) in
  mul (P (mul l1 l2)) (P (repeat 1 (pos_width p))) = mul (P l1) (P l2).
Proof.
  intros F Hp H2 p Hok l1 l2 [L1 I1] [L2 I2] P mul. apply list_ext. intro i.
  assert (M : forall a b i, nth_error (mul a b) i = match nth_error a i, nth_error b i with Some x, Some y => Some ((x * y) mod order) | _, _ => None end).
  { clear. intros a b. unfold mul. revert b. induction a as [|x a IH]; intros [|y b] [|i]; cbn [combine map nth_error fst snd]; try reflexivity; [destruct (nth_error a i); reflexivity|apply IH]. }
  rewrite !M. assert (Lm : length (pos_mds p) = pos_width p) by apply Hok.
  destruct (lt_dec i (pos_width p)) as [Hi|Hi].
  - destruct (poseidon_lane_power Hp H2 p Hok i Hi) as (K & E). fold P in E. set (d := _ ^ Z.of_nat _) in E.
    assert (Id : 0 <= d) by (apply Z.pow_nonneg, sbox_exponent_pos, H2).
    destruct (nth_error l1 i) as [x|] eqn:E1; [|apply nth_error_None in E1; lia]. destruct (nth_error l2 i) as [y|] eqn:E2; [|apply nth_error_None in E2; lia].
    rewrite (E l1 x E1), (E l2 y E2), (E (mul l1 l2) ((x * y) mod order)), (E _ 1);
      [|apply nth_error_repeat, Hi|lia|rewrite M, E1, E2; reflexivity|apply infield_mod, Hp|
       exact (proj1 (Forall_forall _ _) I2 y (nth_error_In _ _ E2))|exact (proj1 (Forall_forall _ _) I1 x (nth_error_In _ _ E1))].
    f_equal. rewrite <- !Zmult_mod. rewrite Z.pow_1_l by exact Id.
    replace (K * ((x * y) mod order) ^ d * (K * 1)) with (K * K * ((x * y) mod order) ^ d) by ring.
    rewrite <- Zmult_mod_idemp_r, (pow_mod_l Hp), Zmult_mod_idemp_r, Z.pow_mul_l. f_equal. ring.
  - assert (N : forall l, length l = pos_width p -> nth_error (P l) i = None) by (intros l L; apply nth_error_None; unfold P; rewrite poseidon_fun_length; lia).
    rewrite (N l1 L1). rewrite (N (mul l1 l2)); [reflexivity|]. unfold mul. rewrite map_length, combine_length. lia.
Qed.
Print Assumptions C101_poseidon_multiplicative.

(** Rescue over F11 with two rounds and three lanes, and Poseidon over F97. *)
Example C101_example : let F : Field := F11 in
  let q := mkRescue 3 3 2 [[2; 3; 1]; [1; 2; 3]; [1; 1; 2]] in
  let call := sponge_evaluate (mkSponge (rescue_mp q) 2 1) (map e_wire (seq 1 3)) 2 in
  Z.gcd (order - 1) (res_alpha q) = 1 /\ lin 2 5 [1; 2; 3] [4; 0; 7] = [0; 4; 8] /\
  match demo [1; 2; 3] call (fun r => r), demo [4; 0; 7] call (fun r => r), demo [0; 4; 8] call (fun r => r) with
  | Ok (true, o1), Ok (true, o2), Ok (true, o3) => o3 = lin 2 5 o1 o2 /\ o1 <> [0; 0] | _, _, _ => False end.
Proof. vm_compute. repeat split. discriminate. Qed.
Example C101_example_poseidon : let F : Field := F97 in let p := mkPoseidon 3 2 3 Exponentiation5 [[2; 1; 1]; [1; 2; 1]; [1; 1; 3]] in
  poseidon_ok p /\ poseidon_ok (mkPoseidon 3 2 3 Inverse [[2; 1; 1]; [1; 2; 1]; [1; 1; 3]]) /\
  let P := poseidon_fun (sbox_fun Exponentiation5) 2 3 (pos_mds p) in
  map (fun x => nth 1 (P [0; x; 0]) 0) [1; 2; 3] = map (fun x => (nth 1 (P [0; 1; 0]) 0 * x ^ (5 ^ 2)) mod 97) [1; 2; 3].
Proof. split; [|split]; vm_compute; repeat split; auto with arith. Qed.
