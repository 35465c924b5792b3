(** Proofs about verify_permutation.rs. *)
From Coq Require Import ZArith List Bool Arith Lia Znumtheory Permutation.
From Verif Require Import Base FieldM FieldP ExprM BuilderM GadgetsM WaksmanM Spec ExprP BitsP MonoP LocalP SoundP
  BimapP RouteP SettleP HonestP CompleteP CmpCompleteP.
Import ListNotations.
Open Scope Z_scope.

Section Net.
Context {F : Field}.

(** ** generators only add values *)
Lemma route_switch_keeps sw bm s side k b s' : route_switch sw bm s side k b = Ok s' -> keeps (snd s) (snd s').
Proof.
  destruct s as [pr v]. unfold route_switch. intro H. destruct (oindex _ _) as [w| |]; cbn [obind] in H; try discriminate.
  destruct (v_set_boolean w b v) as [v1| |] eqn:E; cbn [obind] in H; try discriminate.
  destruct (enqueue_other_side _ _ _ _ _ _ _) as [p1| |]; cbn [obind] in H; try discriminate.
  destruct (enqueue_other_side _ _ p1 _ _ _ _) as [p2| |]; cbn [obind] in H; try discriminate.
  injection H as <-. exact (v_set_boolean_keeps _ _ _ _ E).
Qed.
Lemma route_fold_keeps {A} sw bm side (k : A -> nat) (b : A -> bool) l : forall s s',
  ofold (fun s e => route_switch sw bm s side (k e) (b e)) l s = Ok s' -> keeps (snd s) (snd s').
Proof.
  induction l as [|e l IH]; intros s s' H; cbn [ofold] in H; [injection H as <-; apply keeps_refl|].
  destruct (route_switch sw bm s side (k e) (b e)) as [s1| |] eqn:E; cbn [obind] in H; try discriminate.
  eapply keeps_trans; [exact (route_switch_keeps _ _ _ _ _ _ _ E)|exact (IH _ _ H)].
Qed.
Lemma route_side_keeps sw bm s side s' : route_side sw bm s side = Ok s' -> keeps (snd (fst s)) (snd (fst s')).
Proof.
  destruct s as [[pr v] si]. unfold route_side. destruct (sel side pr) as [|e l].
  - match goal with |- (if ?x then _ else _) = _ -> _ => destruct x end.
    + destruct (route_switch _ _ _ _ _ _) as [[p1 v1]| |] eqn:E; cbn [obind]; try discriminate. intro H. inversion H; subst.
      exact (route_switch_keeps _ _ _ _ _ _ _ E).
    + intro H. inversion H; subst. apply keeps_refl.
  - destruct (ofold _ _ _) as [[p1 v1]| |] eqn:E; cbn [obind]; try discriminate. intro H. inversion H; subst.
    exact (route_fold_keeps _ _ _ _ _ _ _ _ E).
Qed.
Lemma route_loop_keeps sw bm : forall fuel s v', route_loop sw bm fuel s = Ok v' -> keeps (snd (fst s)) v'.
Proof.
  induction fuel as [|fuel IH]; intros [[pr v] si] v' H; cbn [route_loop] in H; [discriminate|].
  destruct (_ || _); [|injection H as <-; apply keeps_refl].
  destruct (route_side sw bm (pr, v, si) false) as [s1| |] eqn:E1; cbn [obind] in H; try discriminate.
  destruct (route_side sw bm s1 true) as [s2| |] eqn:E2; cbn [obind] in H; try discriminate.
  eapply keeps_trans; [exact (route_side_keeps _ _ _ _ _ E1)|]. eapply keeps_trans; [exact (route_side_keeps _ _ _ _ _ E2)|exact (IH _ _ H)].
Qed.
Lemma route_keeps av bv asw bsw v v' : route av bv asw bsw v = Ok v' -> keeps v v'.
Proof.
  intro H. pose proof (route_start av bv (asw, bsw) v) as E. cbn [fst snd] in E. rewrite E in H. clear E.
  destruct (_ =? _)%nat; [|discriminate]. destruct (bimap_from_lists _ _ _) as [bm| |]; cbn [obind] in H; try discriminate.
  destruct (start _ _ _ _) as [pr| |]; cbn [obind] in H; try discriminate. exact (route_loop_keeps _ _ _ _ _ H).
Qed.

Lemma mono_create_switch x y : mono (create_switch x y).
Proof. unfold create_switch. mono. Qed.
Lemma local_create_switch x y : local (create_switch x y).
Proof. unfold create_switch. local. Qed.
Hint Resolve mono_create_switch : mono.
Hint Resolve local_create_switch : local.
Lemma mono_switch_layer l n : mono (switch_layer l n).
Proof. unfold switch_layer. mono. Qed.
Lemma local_switch_layer l n : local (switch_layer l n).
Proof. unfold switch_layer. local. Qed.
Lemma mono_2x2 a b c d : mono (assert_permutation_2x2 a b c d).
Proof. unfold assert_permutation_2x2. mono. Qed.
Lemma local_2x2 a b c d : local (assert_permutation_2x2 a b c d).
Proof. unfold assert_permutation_2x2. local. Qed.
Hint Resolve mono_switch_layer mono_2x2 : mono.
Hint Resolve local_switch_layer local_2x2 : local.

(** the general case *)
Definition net (f : nat) (a b : list expr) : B unit :=
  let n := length a in
  let even := Nat.even n in
  let a_num_switches := (n / 2)%nat in
  let b_num_switches := (if even then a_num_switches - 1 else a_num_switches)%nat in
  las <- switch_layer a a_num_switches ;;
  lbs <- switch_layer b b_num_switches ;;
  let child_1_a := map (fun s => snd (fst s)) las in
  let child_2_a := map snd las in
  let child_1_b := map (fun s => snd (fst s)) lbs in
  let child_2_b := map snd lbs in
  '(c1a, c1b, c2a, c2b) <-
    (if even then
       x <- blift (oindex b (n - 2)) ;;
       y <- blift (oindex b (n - 1)) ;;
       bret (child_1_a, child_1_b ++ [x], child_2_a, child_2_b ++ [y])
     else
       x <- blift (oindex a (n - 1)) ;;
       y <- blift (oindex b (n - 1)) ;;
       bret (child_1_a, child_1_b, child_2_a ++ [x], child_2_b ++ [y])) ;;
  assert_permutation_fuel f c1a c1b ;;
  assert_permutation_fuel f c2a c2b ;;
  b_generator (flat_map e_deps a ++ flat_map e_deps b) (fun v =>
    let! a_values := omap (e_evaluate v) a in
    let! b_values := omap (e_evaluate v) b in
    route a_values b_values (map (fun s => fst (fst s)) las) (map (fun s => fst (fst s)) lbs) v).

Lemma fuel_unfold f a b : (3 <= length a)%nat -> length a = length b ->
  assert_permutation_fuel (S f) a b = bbind (blift (oassert (length a =? length b)%nat)) (fun _ => net f a b).
Proof.
  intros L E. destruct a as [|x1 [|x2 [|x3 a]]]; cbn [length] in *; try lia.
  destruct b as [|y1 [|y2 [|y3 b]]]; cbn [length] in *; try lia. reflexivity.
Qed.

Lemma mono_net f a b : (forall a b, mono (assert_permutation_fuel f a b)) -> mono (net f a b).
Proof.
  intro IH. unfold net. cbv zeta. apply mono_bind; [mono|intro las]. apply mono_bind; [mono|intro lbs].
  apply mono_bind; [mono|]. intros [[[c1a c1b] c2a] c2b]. apply mono_bind; [apply IH|intro]. apply mono_bind; [apply IH|intro].
  apply mono_generator. intros v v' H. destruct (omap (e_evaluate v) a) as [av| |]; cbn [obind] in H; try discriminate.
  destruct (omap (e_evaluate v) b) as [bv| |]; cbn [obind] in H; try discriminate. exact (route_keeps _ _ _ _ _ _ H).
Qed.
Lemma local_net f a b : (forall a b, local (assert_permutation_fuel f a b)) -> local (net f a b).
Proof.
  intro IH. unfold net. cbv zeta. apply local_bind; [local|intro las]. apply local_bind; [local|intro lbs].
  apply local_bind; [local|]. intros [[[c1a c1b] c2a] c2b]. apply local_bind; [apply IH|intro]. apply local_bind; [apply IH|intro]. local.
Qed.
Lemma small_cases (Q : B unit -> Prop) f : Q (blift Panic) -> (forall x y, Q (assert_equal x y)) -> Q (bret tt) ->
  (forall a b c d, Q (assert_permutation_2x2 a b c d)) -> (forall a b, Q (net f a b)) ->
  forall a b, length a = length b -> (forall m, Q m -> Q (bbind (blift (oassert (length a =? length b)%nat)) (fun _ => m))) ->
  Q (assert_permutation_fuel (S f) a b).
Proof.
  intros QP Q1 Q0 Q2 Qn a b L Qb. destruct (Nat.le_gt_cases 3 (length a)) as [G|G].
  - rewrite (fuel_unfold f a b G L). apply Qb, Qn.
  - destruct a as [|x1 [|x2 [|x3 a]]]; cbn [length] in G; try lia; destruct b as [|y1 [|y2 [|y3 b]]]; cbn [length] in L; try discriminate.
    + apply (Qb (bret tt)), Q0.
    + apply (Qb (assert_equal x1 y1)), Q1.
    + apply (Qb (assert_permutation_2x2 x1 x2 y1 y2)), Q2.
Qed.
Lemma fuel_mismatch f a b : length a <> length b -> forall s, assert_permutation_fuel (S f) a b s = Panic.
Proof. intros L s. cbn [assert_permutation_fuel]. apply Nat.eqb_neq in L. rewrite L. reflexivity. Qed.

Lemma mono_fuel : forall f a b, mono (assert_permutation_fuel f a b).
Proof.
  induction f as [|f IH]; intros a b; [apply mono_lift|].
  destruct (Nat.eq_dec (length a) (length b)) as [L|L].
  - apply (small_cases mono f); auto with mono; try (intros; apply mono_net, IH). intros m Hm. apply mono_bind; [apply mono_lift|auto].
  - intros s x s' E. rewrite (fuel_mismatch f a b L) in E. discriminate.
Qed.
Lemma local_fuel : forall f a b, local (assert_permutation_fuel f a b).
Proof.
  induction f as [|f IH]; intros a b; [apply local_lift|].
  destruct (Nat.eq_dec (length a) (length b)) as [L|L].
  - apply (small_cases local f); auto with local; try (intros; apply local_net, IH). intros m Hm. apply local_bind; [apply local_lift|auto].
  - intro s. rewrite !(fuel_mismatch f a b L). reflexivity.
Qed.
End Net.
Global Hint Resolve mono_create_switch mono_switch_layer mono_2x2 mono_fuel : mono.
Global Hint Resolve local_create_switch local_switch_layer local_2x2 local_fuel : local.

Lemma mono_assert_permutation {F : Field} a b : mono (assert_permutation a b).
Proof. unfold assert_permutation. auto with mono. Qed.
Lemma local_assert_permutation {F : Field} a b : local (assert_permutation a b).
Proof. unfold assert_permutation. auto with local. Qed.
Global Hint Resolve mono_assert_permutation : mono.
Global Hint Resolve local_assert_permutation : local.

(** ** soundness *)
Section Sound.
Context {F : Field} (Hp : prime order) (w : witness) (Hw : wf_witness w).
Let Hord : 2 <= order := prime_ge2 Hp.

Lemma snd_create_switch x y : sound w (create_switch x y) (fun t => exists s : bool,
  ev w (snd (fst t)) = (if s then ev w y else ev w x) /\ ev w (snd t) = (if s then ev w x else ev w y)).
Proof using Hp Hw.
  unfold create_switch. sbind (apply (snd_boolean_wire Hp w Hw)). intros k Hk.
  assert (Ek : ev w (e_wire k) = w k) by exact (ev_wire_ Hp w Hw k).
  sbind (apply (snd_selection Hp w Hw); rewrite Ek; exact Hk). intros c Ec. apply sound_ret. cbn [fst snd].
  exists (w k =? 1). rewrite Ek in Ec. rewrite Ec, (ev_sub_mod Hp), (ev_add_mod Hp), Ec.
  split; [reflexivity|]. zmod. destruct (w k =? 1).
  - replace (ev w x + ev w y - ev w y) with (ev w x) by ring. apply (ev_mod Hp).
  - replace (ev w x + ev w y - ev w x) with (ev w y) by ring. apply (ev_mod Hp).
Qed.

Definition switched (lv : list Z) (k : nat) (c d : Z) : Prop := (2 * k + 1 < length lv)%nat /\ exists s : bool,
  c = nth (2 * k + (if s then 1 else 0)) lv 0 /\ d = nth (2 * k + (if s then 0 else 1)) lv 0.

Lemma snd_switch_layer l m : sound w (switch_layer l m)
  (fun r => Forall2 (fun k t => switched (map (ev w) l) k (ev w (snd (fst t))) (ev w (snd t))) (seq 0 m) r).
Proof using Hp Hw.
  unfold switch_layer. apply sound_bmap; [intro; mono|]. intros k _.
  eapply sound_bind with (Q := fun x => nth_error l (k * 2) = Some x); [|intro; mono|].
  { apply sound_lift. intros x. unfold oindex, ounwrap. destruct (nth_error l (k * 2)); congruence. }
  intros x Hx. eapply sound_bind with (Q := fun y => nth_error l (k * 2 + 1) = Some y); [|intro; mono|].
  { apply sound_lift. intros y. unfold oindex, ounwrap. destruct (nth_error l (k * 2 + 1)); congruence. }
  intros y Hy. slast (apply snd_create_switch). intros t (s & E1 & E2).
  assert (L : (k * 2 + 1 < length l)%nat) by (apply nth_error_Some; congruence).
  split; [rewrite map_length; lia|]. exists s. rewrite E1, E2.
  assert (Nx : nth (2 * k + 0) (map (ev w) l) 0 = ev w x).
  { apply nth_error_nth. replace (2 * k + 0)%nat with (k * 2)%nat by lia. rewrite nth_error_map, Hx. reflexivity. }
  assert (Ny : nth (2 * k + 1) (map (ev w) l) 0 = ev w y).
  { apply nth_error_nth. replace (2 * k + 1)%nat with (k * 2 + 1)%nat by lia. rewrite nth_error_map, Hy. reflexivity. }
  destruct s; rewrite Nx, Ny; auto.
Qed.

Lemma skipn_two (lv : list Z) k : (2 * k + 1 < length lv)%nat ->
  skipn (2 * k) lv = nth (2 * k) lv 0 :: nth (2 * k + 1) lv 0 :: skipn (2 * S k) lv.
Proof using.
  assert (G : forall j l, (j < length l)%nat -> skipn j l = nth j l 0 :: skipn (S j) l).
  { induction j as [|j IH]; intros [|x l] H; cbn [length] in H; try lia; [reflexivity|]. cbn [skipn nth]. apply IH. lia. }
  intro H. rewrite (G (2 * k)%nat lv) by lia. rewrite (G (S (2 * k)) lv) by lia. f_equal.
  replace (2 * k + 1)%nat with (S (2 * k)) by lia. f_equal. f_equal. lia.
Qed.
Lemma switched_perm (lv : list Z) (c d : wire * expr * expr -> Z) : forall m k r,
  Forall2 (fun k t => switched lv k (c t) (d t)) (seq k m) r ->
  Permutation (map c r ++ map d r) (firstn (2 * m) (skipn (2 * k) lv)).
Proof using.
  induction m as [|m IH]; intros k r H; cbn [seq] in H.
  - inversion H; subst. constructor.
  - inversion H as [|? t ? r' Ht Hr]; subst. destruct Ht as (L & s & E1 & E2).
    rewrite (skipn_two lv k L). replace (2 * S m)%nat with (S (S (2 * m))) by lia. cbn [firstn map app].
    rewrite <- (IH (S k) r' Hr). rewrite <- Permutation_middle.
    destruct s; rewrite Nat.add_0_r in *; rewrite E1, E2; [apply perm_swap|reflexivity].
Qed.

Lemma snd_2x2 a b c d : sound w (assert_permutation_2x2 a b c d) (fun _ => Permutation [ev w a; ev w b] [ev w c; ev w d]).
Proof using Hp Hw.
  unfold assert_permutation_2x2. sbind (apply snd_create_switch). intros [[sw c'] d'] (s & E1 & E2). cbn [fst snd] in *.
  sbind (apply (snd_assert_equal Hp w Hw)). intros _ E3. sbind (apply (snd_assert_equal Hp w Hw)). intros _ E4.
  slast (apply sound_true). intros _ _. rewrite E3, E4, E1, E2. destruct s; [apply perm_swap|reflexivity].
Qed.

Lemma firstn_last2 (l : list Z) n : (2 <= n)%nat -> length l = n -> l = firstn (n - 2) l ++ [nth (n - 2) l 0; nth (n - 1) l 0].
Proof using.
  intros H L. rewrite <- (firstn_skipn (n - 2) l) at 1. f_equal.
  assert (S2 : length (skipn (n - 2) l) = 2%nat) by (rewrite skipn_length; lia).
  rewrite <- (firstn_skipn (n - 2) l) at 2 3. rewrite !app_nth2; rewrite firstn_length, Nat.min_l by lia; try lia.
  replace (n - 2 - (n - 2))%nat with 0%nat by lia. replace (n - 1 - (n - 2))%nat with 1%nat by lia.
  destruct (skipn (n - 2) l) as [|x [|y [|z t]]]; cbn in S2; try discriminate. reflexivity.
Qed.
Lemma firstn_last1 (l : list Z) n : (1 <= n)%nat -> length l = n -> l = firstn (n - 1) l ++ [nth (n - 1) l 0].
Proof using.
  intros H L. rewrite <- (firstn_skipn (n - 1) l) at 1. f_equal.
  assert (S2 : length (skipn (n - 1) l) = 1%nat) by (rewrite skipn_length; lia).
  rewrite <- (firstn_skipn (n - 1) l) at 2. rewrite !app_nth2; rewrite firstn_length, Nat.min_l by lia; try lia.
  replace (n - 1 - (n - 1))%nat with 0%nat by lia.
  destruct (skipn (n - 1) l) as [|x [|y t]]; cbn in S2; try discriminate. reflexivity.
Qed.

Lemma mix {A} (p q r s : list A) (x y : list A) : Permutation (p ++ q) (r ++ x ++ s ++ y) -> Permutation (p ++ q) ((r ++ s) ++ x ++ y).
Proof using.
  intro H. rewrite H, <- app_assoc. apply Permutation_app_head. rewrite !app_assoc. apply Permutation_app_tail, Permutation_app_comm.
Qed.

Lemma snd_net f a b : (forall a b, sound w (assert_permutation_fuel f a b) (fun _ => Permutation (map (ev w) a) (map (ev w) b))) ->
  (3 <= length a)%nat -> length a = length b -> sound w (net f a b) (fun _ => Permutation (map (ev w) a) (map (ev w) b)).
Proof using Hp Hw.
  intros IH Hn Hl. unfold net. cbv zeta. set (n := length a) in *.
  assert (M : forall {A} (x : A) las lbs c1a c1b c2a c2b, mono (assert_permutation_fuel f c1a c1b ;;
    assert_permutation_fuel f c2a c2b ;;
    b_generator (flat_map e_deps a ++ flat_map e_deps b) (fun v =>
      let! a_values := omap (e_evaluate v) a in
      let! b_values := omap (e_evaluate v) b in
      route a_values b_values (map (fun s : wire * expr * expr => fst (fst s)) las) (map (fun s : wire * expr * expr => fst (fst s)) lbs) v))).
  { intros A x las lbs c1a c1b c2a c2b. apply mono_bind; [mono|intro]. apply mono_bind; [mono|intro].
    apply mono_generator. intros v v' H. destruct (omap (e_evaluate v) a) as [av| |]; cbn [obind] in H; try discriminate.
    destruct (omap (e_evaluate v) b) as [bv| |]; cbn [obind] in H; try discriminate. exact (route_keeps _ _ _ _ _ _ H). }
  eapply sound_bind; [apply snd_switch_layer| |].
  { intro las. apply mono_bind; [mono|intro lbs]. apply mono_bind; [mono|]. intros [[[c1a c1b] c2a] c2b]. apply (M unit tt). }
  cbv beta. intros las Hlas. eapply sound_bind; [apply snd_switch_layer| |].
  { intro lbs. apply mono_bind; [mono|]. intros [[[c1a c1b] c2a] c2b]. apply (M unit tt). }
  cbv beta. intros lbs Hlbs.
  apply (switched_perm (map (ev w) a) (fun t => ev w (snd (fst t))) (fun t => ev w (snd t))) in Hlas.
  apply (switched_perm (map (ev w) b) (fun t => ev w (snd (fst t))) (fun t => ev w (snd t))) in Hlbs.
  change (2 * 0)%nat with 0%nat in Hlas, Hlbs. cbn [skipn] in Hlas, Hlbs. rewrite <- (map_map (fun t => snd (fst t)) (ev w)) in Hlas, Hlbs. rewrite <- (map_map snd (ev w)) in Hlas, Hlbs.
  set (A1 := map (fun s => snd (fst s)) las) in *. set (A2 := map snd las) in *. set (B1 := map (fun s => snd (fst s)) lbs) in *. set (B2 := map snd lbs) in *.
  assert (La : length (map (ev w) a) = n) by apply map_length. assert (Lb : length (map (ev w) b) = n) by (rewrite map_length; auto).
  assert (Idx : forall l j e, length l = n -> oindex l j = Ok e -> nth j (map (ev w) l) 0 = ev w e).
  { intros l j e Ll E. unfold oindex, ounwrap in E. destruct (nth_error l j) as [e'|] eqn:E'; [|discriminate]. injection E as ->.
    apply nth_error_nth. rewrite nth_error_map, E'. reflexivity. }
  destruct (half n) as [(En & Ee & _)|(En & Ee & _)]; rewrite Ee in *.
  - eapply sound_bind with (Q := fun t => exists x y, t = (A1, B1 ++ [x], A2, B2 ++ [y]) /\
      nth (n - 2) (map (ev w) b) 0 = ev w x /\ nth (n - 1) (map (ev w) b) 0 = ev w y).
    { eapply sound_bind with (Q := fun x => nth (n - 2) (map (ev w) b) 0 = ev w x); [apply sound_lift; intros x E; exact (Idx b _ x (eq_sym Hl) E)|intro; mono|].
      intros x Ex. eapply sound_bind with (Q := fun y => nth (n - 1) (map (ev w) b) 0 = ev w y); [apply sound_lift; intros y E; exact (Idx b _ y (eq_sym Hl) E)|intro; mono|].
      intros y Ey. apply sound_ret. exists x, y. auto. }
    { intros [[[c1a c1b] c2a] c2b]. apply (M unit tt). }
    intros t (x & y & -> & Ex & Ey).
    eapply sound_bind; [apply IH|intro; apply mono_bind; [mono|intro; apply mono_generator; intros v v' H; destruct (omap (e_evaluate v) a); cbn [obind] in H; try discriminate; destruct (omap (e_evaluate v) b); cbn [obind] in H; try discriminate; exact (route_keeps _ _ _ _ _ _ H)]|].
    cbv beta. intros _ P1.
    eapply sound_bind; [apply IH|intro; apply mono_generator; intros v v' H; destruct (omap (e_evaluate v) a); cbn [obind] in H; try discriminate; destruct (omap (e_evaluate v) b); cbn [obind] in H; try discriminate; exact (route_keeps _ _ _ _ _ _ H)|].
    cbv beta. intros _ P2. slast (apply sound_true). intros _ _.
    replace (2 * (n / 2))%nat with n in Hlas by lia. rewrite firstn_all2 in Hlas by lia.
    replace (2 * (n / 2 - 1))%nat with (n - 2)%nat in Hlbs by lia.
    rewrite (firstn_last2 (map (ev w) b) n ltac:(lia) Lb), <- Hlbs, <- Hlas, Ex, Ey.
    rewrite map_app in P1, P2. cbn [map] in P1, P2. apply (mix _ _ (map (ev w) B1) (map (ev w) B2) [ev w x] [ev w y]).
    rewrite P1, P2, <- app_assoc. reflexivity.
  - eapply sound_bind with (Q := fun t => exists x y, t = (A1, B1, A2 ++ [x], B2 ++ [y]) /\
      nth (n - 1) (map (ev w) a) 0 = ev w x /\ nth (n - 1) (map (ev w) b) 0 = ev w y).
    { eapply sound_bind with (Q := fun x => nth (n - 1) (map (ev w) a) 0 = ev w x); [apply sound_lift; intros x E; exact (Idx a _ x eq_refl E)|intro; mono|].
      intros x Ex. eapply sound_bind with (Q := fun y => nth (n - 1) (map (ev w) b) 0 = ev w y); [apply sound_lift; intros y E; exact (Idx b _ y (eq_sym Hl) E)|intro; mono|].
      intros y Ey. apply sound_ret. exists x, y. auto. }
    { intros [[[c1a c1b] c2a] c2b]. apply (M unit tt). }
    intros t (x & y & -> & Ex & Ey).
    eapply sound_bind; [apply IH|intro; apply mono_bind; [mono|intro; apply mono_generator; intros v v' H; destruct (omap (e_evaluate v) a); cbn [obind] in H; try discriminate; destruct (omap (e_evaluate v) b); cbn [obind] in H; try discriminate; exact (route_keeps _ _ _ _ _ _ H)]|].
    cbv beta. intros _ P1.
    eapply sound_bind; [apply IH|intro; apply mono_generator; intros v v' H; destruct (omap (e_evaluate v) a); cbn [obind] in H; try discriminate; destruct (omap (e_evaluate v) b); cbn [obind] in H; try discriminate; exact (route_keeps _ _ _ _ _ _ H)|].
    cbv beta. intros _ P2. slast (apply sound_true). intros _ _.
    replace (2 * (n / 2))%nat with (n - 1)%nat in Hlas by lia. replace (2 * (n / 2))%nat with (n - 1)%nat in Hlbs by lia.
    rewrite (firstn_last1 (map (ev w) a) n ltac:(lia) La), (firstn_last1 (map (ev w) b) n ltac:(lia) Lb), <- Hlbs, <- Hlas, Ex, Ey.
    rewrite !map_app in P2. cbn [map] in P2. rewrite <- !app_assoc. rewrite P1, P2. reflexivity.
Qed.

Lemma snd_fuel : forall f a b, sound w (assert_permutation_fuel f a b) (fun _ => length a = length b /\ Permutation (map (ev w) a) (map (ev w) b)).
Proof using Hp Hw.
  intros f a b. enough (H : forall f a b, sound w (assert_permutation_fuel f a b) (fun _ => Permutation (map (ev w) a) (map (ev w) b))).
  { eapply sound_weaken; [apply H|]. cbv beta. intros _ P. split; [|exact P]. apply Permutation_length in P. rewrite !map_length in P. exact P. }
  clear f a b. induction f as [|f IH]; intros a b; [apply sound_lift; discriminate|].
  destruct (Nat.eq_dec (length a) (length b)) as [L|L]; [|intros s x s' E; rewrite (fuel_mismatch f a b L) in E; discriminate].
  destruct (Nat.le_gt_cases 3 (length a)) as [G|G].
  - rewrite (fuel_unfold f a b G L). eapply sound_bind; [apply sound_true|intro; apply mono_net; mono|]. intros _ _. apply snd_net; assumption.
  - destruct a as [|x1 [|x2 [|x3 a]]]; cbn [length] in G; try lia; destruct b as [|y1 [|y2 [|y3 b]]]; cbn [length] in L; try discriminate; cbn [assert_permutation_fuel map].
    + sbind (apply sound_true). intros _ _. apply sound_ret. constructor.
    + sbind (apply sound_true). intros _ _. slast (apply (snd_assert_equal Hp w Hw)). intros _ ->. reflexivity.
    + sbind (apply sound_true). intros _ _. apply snd_2x2.
Qed.
Lemma snd_assert_permutation a b : sound w (assert_permutation a b) (fun _ => length a = length b /\ Permutation (map (ev w) a) (map (ev w) b)).
Proof using Hp Hw. apply snd_fuel. Qed.
End Sound.

(** ** completeness *)
Section Complete.
Context {F : Field} (Hp : prime order) (D : nat -> Prop).
Let Hord : 2 <= order := prime_ge2 Hp.

Lemma cmpl_create_switch P s x y a b (t : bool) : has s x a -> has s y b ->
  comp D P s (create_switch x y) (fun r P' s' => fst (fst r) = nx s /\ P' = nx s :: P /\ hasw s' (nx s) (b2z t) /\
    has s' (snd (fst r)) (if t then b else a) /\ has s' (snd r) (if t then a else b)).
Proof using Hp.
  intros Hx Hy. unfold create_switch, boolean_wire.
  assert (Hbit : is_bit (b2z t)) by (destruct t; [right|left]; reflexivity).
  eapply comp_bind with (Q := fun k P' s' => k = nx s /\ P' = k :: P /\ nx s' = S (nx s) /\ hasw s' k (b2z t)).
  { cbind (apply comp_wire; exact (is_bit_infield Hp (b2z t) Hbit)).
    intros k P1 s1 X1 G1 (-> & -> & N1 & W1).
    cbind (eapply (cmpl_assert_boolean Hp); [apply (has_wire Hp); [exact G1|exact W1]|exact Hbit]).
    intros r P2 s2 _ _ (-> & -> & ->). apply comp_ret. auto. }
  intros k P1 s1 X1 G1 (-> & -> & N1 & W1). carry.
  cbind (apply (cmpl_selection Hp); [apply (has_wire Hp); [exact G1|exact W1]|exact Hy|exact Hx|exact Hbit]).
  intros c P2 s2 X2 G2 [-> Hc]. carry. apply comp_ret. cbn [fst snd]. split; [reflexivity|]. split; [reflexivity|]. split; [exact W1|].
  pose proof (has_infield Hp _ _ _ Hx) as Ia. pose proof (has_infield Hp _ _ _ Hy) as Ib. unfold infield in *.
  split; [destruct t; exact Hc|]. eapply has_eq; [apply (has_sub Hp); [apply (has_add Hp); [exact Hx|exact Hy]|exact Hc]|].
  zmod. destruct t; cbn [b2z Z.eqb Pos.eqb].
  - replace (a + b - b) with a by ring. apply Z.mod_small, Ia.
  - replace (a + b - a) with b by ring. apply Z.mod_small, Ib.
Qed.

Lemma F2len {A C} (R : A -> C -> Prop) l r : Forall2 R l r -> length l = length r.
Proof using. induction 1; cbn; congruence. Qed.
Arguments F2len {A C R l r}.

Definition wiresof (las : list (wire * expr * expr)) : list wire := map (fun s => fst (fst s)) las.
Lemma cmpl_layer l lv (t : nat -> bool) s0 : hasl s0 l lv -> forall m k P s, ext s0 s -> (2 * (k + m) <= length l)%nat ->
  comp D P s (bmap (fun i => x <- blift (oindex l (i * 2)) ;; y <- blift (oindex l (i * 2 + 1)) ;; create_switch x y) (seq k m))
    (fun las P' s' => Permutation P' (wiresof las ++ P) /\
      hasl s' (map (fun s => snd (fst s)) las) (map (fun k => nth (2 * k + (if xorb (t k) false then 1 else 0)) lv 0) (seq k m)) /\
      hasl s' (map snd las) (map (fun k => nth (2 * k + (if xorb (t k) true then 1 else 0)) lv 0) (seq k m)) /\
      Forall2 (hasw s') (wiresof las) (map (fun k => b2z (t k)) (seq k m)) /\
      Forall (fun w => nx s <= w)%nat (wiresof las)).
Proof using Hp.
  intros Hl. pose proof (hasl_length _ _ _ Hl) as Ll.
  induction m as [|m IH]; intros k P s X L; cbn [seq bmap].
  - apply comp_ret. cbn. split; [reflexivity|]. repeat split; constructor.
  - assert (Hx : exists x, oindex l (k * 2) = Ok x /\ has s0 x (nth (2 * k + 0) lv 0)).
    { replace (2 * k + 0)%nat with (k * 2)%nat by lia. destruct (hasl_nth _ _ _ Hl (k * 2)%nat ltac:(lia)) as (x & E & _ & H). eauto. }
    assert (Hy : exists y, oindex l (k * 2 + 1) = Ok y /\ has s0 y (nth (2 * k + 1) lv 0)).
    { replace (2 * k + 1)%nat with (k * 2 + 1)%nat by lia. destruct (hasl_nth _ _ _ Hl (k * 2 + 1)%nat ltac:(lia)) as (y & E & _ & H). eauto. }
    destruct Hx as (x & Ex & Hx), Hy as (y & Ey & Hy). pose proof (has_ext _ _ _ _ X Hx) as Hx1. pose proof (has_ext _ _ _ _ X Hy) as Hy1.
    eapply comp_bind; [eapply comp_liftb; [exact Ex|]; eapply comp_liftb; [exact Ey|]; apply (cmpl_create_switch P s x y _ _ (t k) Hx1 Hy1)|]. cbv beta.
    intros [[w c] d] P1 s1 X1 G1 (E1 & -> & W1 & C1 & D1). cbn [fst snd] in E1, C1, D1. subst w.
    eapply comp_bind; [apply (IH (S k) (nx s :: P) s1); [eapply ext_trans; eassumption|lia]|]. cbv beta.
    intros las P2 s2 X2 G2 (Q1 & Q2 & Q3 & Q4 & Q5). carry. apply comp_ret. cbn [wiresof map fst snd].
    split; [rewrite Q1; symmetry; apply Permutation_middle|]. split; [|split; [|split]].
    + constructor; [|exact Q2]. destruct (t k); cbn [xorb]; assumption.
    + constructor; [|exact Q3]. destruct (t k); cbn [xorb]; assumption.
    + constructor; assumption.
    + constructor; [lia|]. eapply Forall_impl; [|exact Q5]. cbv beta. destruct X1 as [X1 _]. lia.
Qed.

Lemma omap_eval s l lv v : hasl s l lv -> (forall i, In i (flat_map e_deps l) -> m_get i v = Some (wt s i)) -> omap (e_evaluate v) l = Ok lv.
Proof using Hp.
  induction 1 as [|e c l lv He _ IH]; intro H; cbn [omap]; [reflexivity|]. cbn [flat_map] in H.
  rewrite (eval_has Hp s e c v He) by (intros i Hi; apply H, in_or_app; auto). cbn [obind].
  rewrite IH by (intros i Hi; apply H, in_or_app; auto). reflexivity.
Qed.
Lemma flat_deps_lt s l lv : hasl s l lv -> forall i, In i (flat_map e_deps l) -> (i < nx s)%nat.
Proof using.
  induction 1 as [|e c l lv He _ IH]; cbn [flat_map]; [intros i []|]. intros i Hi. apply in_app_or in Hi.
  destruct Hi as [Hi|Hi]; [exact (deps_lt s e c He i Hi)|exact (IH i Hi)].
Qed.

Lemma cmpl_2x2 P s x1 x2 y1 y2 a b c d : has s x1 a -> has s x2 b -> has s y1 c -> has s y2 d ->
  Permutation [a; b] [c; d] -> comp D P s (assert_permutation_2x2 x1 x2 y1 y2) (done P (fun _ _ => True)).
Proof using Hp.
  intros Hx1 Hx2 Hy1 Hy2 HP. unfold assert_permutation_2x2.
  set (t := negb ((a =? c) && (b =? d))).
  assert (Ht : c = (if t then b else a) /\ d = (if t then a else b)).
  { unfold t. destruct (Z.eqb_spec a c) as [E1|N1]; destruct (Z.eqb_spec b d) as [E2|N2]; cbn [andb negb]; auto;
      apply Permutation_length_2 in HP; destruct HP as [[? ?]|[? ?]]; subst; congruence || auto. }
  pose proof (deps_lt _ _ _ Hx1). pose proof (deps_lt _ _ _ Hx2). pose proof (deps_lt _ _ _ Hy1). pose proof (deps_lt _ _ _ Hy2).
  cbind (apply (cmpl_create_switch P s x1 x2 a b t Hx1 Hx2)). intros [[w c'] d'] P1 s1 X1 G1 (E1 & -> & W1 & C1 & D1). cbn [fst snd] in E1, C1, D1. subst w.
  carry. destruct Ht as [Tc Td].
  cbind (apply (cmpl_assert_equal Hp) with (a := c); [exact Hy1|rewrite Tc; exact C1]). intros _ P2 s2 _ _ [-> ->].
  cbind (apply (cmpl_assert_equal Hp) with (a := d); [exact Hy2|rewrite Td; exact D1]). intros _ P2 s2 _ _ [-> ->].
  eapply comp_weaken; [eapply comp_gen1 with (c := b2z t); [exact W1| |]|].
  - intros i Hi. rewrite !in_app_iff in Hi. destruct Hi as [Hi|[Hi|[Hi|Hi]]]; auto.
  - intros v Hv. rewrite (eval_has Hp s1 x1 a v Hx1) by (intros; apply Hv; rewrite !in_app_iff; auto). cbn [obind].
    rewrite (eval_has Hp s1 x2 b v Hx2) by (intros; apply Hv; rewrite !in_app_iff; auto). cbn [obind].
    rewrite (eval_has Hp s1 y1 c v Hy1) by (intros; apply Hv; rewrite !in_app_iff; auto). cbn [obind].
    rewrite (eval_has Hp s1 y2 d v Hy2) by (intros; apply Hv; rewrite !in_app_iff; auto). cbn [obind].
    unfold v_set_boolean. destruct ((a =? c) && (b =? d)) eqn:E; subst t; cbn [negb] in *; [reflexivity|].
    rewrite Td, Tc, !Z.eqb_refl. cbn [andb]. reflexivity.
  - cbv beta. intros ? P' s' _ _ [-> _]. split; [reflexivity|exact I].
Qed.

Lemma hasl_app s l1 l2 v1 v2 : hasl s l1 v1 -> hasl s l2 v2 -> hasl s (l1 ++ l2) (v1 ++ v2).
Proof using. intros H1 H2. unfold hasl. apply Forall2_app; assumption. Qed.
Lemma wires_nth (las : list (wire * expr * expr)) s (t : nat -> bool) m :
  Forall2 (hasw s) (wiresof las) (map (fun k => b2z (t k)) (seq 0 m)) ->
  length (wiresof las) = m /\ forall k, (k < m)%nat -> wt s (nth k (wiresof las) 0%nat) = b2z (t k).
Proof using.
  intro H. assert (L : length (wiresof las) = m) by (pose proof (F2len H) as L; rewrite map_length, seq_length in L; exact L). split; [exact L|].
  intros k Hk. destruct (hasw_nth _ _ _ H k ltac:(lia)) as [_ ->].
  rewrite (nth_indep _ 0 (b2z (t 0%nat))) by (rewrite map_length, seq_length; exact Hk).
  rewrite (map_nth (fun k => b2z (t k)) (seq 0 m) 0%nat). rewrite seq_nth by exact Hk. reflexivity.
Qed.

Lemma cmpl_net f a b av bv P s : hasl s a av -> hasl s b bv -> Permutation av bv -> (3 <= length a)%nat ->
  (forall a' b' av' bv' P' s', hasl s' a' av' -> hasl s' b' bv' -> Permutation av' bv' -> (length a' < length a)%nat ->
     comp D P' s' (assert_permutation_fuel f a' b') (done P' (fun _ _ => True))) ->
  comp D P s (net f a b) (done P (fun _ _ => True)).
Proof using Hp.
  intros Ha Hb HP Hn IH. unfold net. cbv zeta.
  pose proof (hasl_length _ _ _ Ha) as La. pose proof (hasl_length _ _ _ Hb) as Lb. pose proof (Permutation_length HP) as Lp.
  set (n := length a) in *. assert (Nav : length av = n) by lia.
  pose proof (flat_deps_lt _ _ _ Ha) as Da. pose proof (flat_deps_lt _ _ _ Hb) as Db.
  assert (Lna : (2 * (0 + n / 2) <= length a)%nat) by (fold n; destruct (half n) as [(E & _)|(E & _)]; lia).
  assert (Lnb : (2 * (0 + (if Nat.even n then n / 2 - 1 else n / 2)) <= length b)%nat) by (destruct (half n) as [(E & -> & _)|(E & -> & _)]; lia).
  unfold switch_layer.
  eapply comp_bind; [apply (cmpl_layer a av (setting av bv false) s Ha _ 0%nat P s (ext_refl s) Lna)|]. cbv beta.
  intros las P1 s1 X1 G1 (A1 & A2 & A3 & A4 & A5).
  eapply comp_bind; [apply (cmpl_layer b bv (setting av bv true) s Hb _ 0%nat P1 s1 X1 Lnb)|]. cbv beta.
  intros lbs P2 s2 X2 G2 (B1 & B2 & B3 & B4 & B5). pose proof (ext_trans _ _ _ X1 X2) as X12. carry.
  pose proof (halves_permuted Hord av bv false HP ltac:(lia)) as H1. pose proof (halves_permuted Hord av bv true HP ltac:(lia)) as H2.
  rewrite !map_idx, Nav in H1, H2. unfold tail, numb, na, nb in H1, H2.
  assert (Gen : forall c1a c1b c2a c2b v1a v1b v2a v2b, hasl s2 c1a v1a -> hasl s2 c1b v1b -> hasl s2 c2a v2a -> hasl s2 c2b v2b ->
    Permutation v1a v1b -> Permutation v2a v2b -> (length c1a < n)%nat -> (length c2a < n)%nat ->
    comp D P2 s2 (assert_permutation_fuel f c1a c1b ;; assert_permutation_fuel f c2a c2b ;;
      b_generator (flat_map e_deps a ++ flat_map e_deps b) (fun v =>
        let! a_values := omap (e_evaluate v) a in
        let! b_values := omap (e_evaluate v) b in
        route a_values b_values (map (fun s => fst (fst s)) las) (map (fun s => fst (fst s)) lbs) v)) (done P (fun _ _ => True))).
  { intros c1a c1b c2a c2b v1a v1b v2a v2b K1 K2 K3 K4 K5 K6 K7 K8.
    eapply comp_bind; [apply (IH c1a c1b v1a v1b P2 s2 K1 K2 K5 K7)|]. cbv beta. intros ? P3 s3 X3 G3 [-> _]. carry.
    eapply comp_bind; [apply (IH c2a c2b v2a v2b P2 s3 K3 K4 K6 K8)|]. cbv beta. intros ? P4 s4 X4 G4 [-> _]. carry.
    apply comp_hon. intros G ND Hlt. fold (wiresof las) (wiresof lbs).
    assert (PP : Permutation P2 ((wiresof las ++ wiresof lbs) ++ P)).
    { rewrite B1, A1, !app_assoc. apply Permutation_app_tail, Permutation_app_comm. }
    destruct (wires_nth las s4 (setting av bv false) (n / 2) A4) as [WA1 WA2].
    destruct (wires_nth lbs s4 (setting av bv true) _ B4) as [WB1 WB2].
    eapply comp_weaken; [apply (comp_gens D P2 P s4 (wiresof las ++ wiresof lbs)); [exact PP| | | |]|].
    - intros k Hk. apply Hlt. eapply Permutation_in; [symmetry; exact PP|]. apply in_or_app. left. exact Hk.
    - destruct X12 as [X12 _], X3 as [X3 _], X4 as [X4 _]. intros i Hi. apply in_app_or in Hi. destruct Hi as [Hi|Hi]; [apply Da in Hi|apply Db in Hi]; lia.
    - intros i k Hi Hk. rewrite Forall_forall in A5, B5. destruct X1 as [X1 _]. apply in_app_or in Hi, Hk.
      assert (i < nx s)%nat by (destruct Hi as [Hi|Hi]; [apply Da in Hi|apply Db in Hi]; lia).
      destruct Hk as [Hk|Hk]; [apply A5 in Hk|apply B5 in Hk]; lia.
    - intros v Hv Hno.
      rewrite (omap_eval s4 a av v Ha) by (intros; apply Hv, in_or_app; auto). cbn [obind].
      rewrite (omap_eval s4 b bv v Hb) by (intros; apply Hv, in_or_app; auto). cbn [obind].
      destruct (route_spec Hord av bv HP ltac:(lia)) as (_ & _ & _ & _ & _ & R). rewrite Nav in R.
      destruct (R (wiresof las, wiresof lbs) v) as (v' & E & O1 & O2).
      { split; [exact WA1|]. split; [exact WB1|]. cbn [fst snd]. apply (Permutation_NoDup PP), NoDup_split in ND. apply ND. }
      { exact Hno. }
      cbn [fst snd] in E, O1. exists v'. split; [exact E|]. intro j. destruct (memb j (wiresof las ++ wiresof lbs)) eqn:M.
      + apply memb_In, in_app_or in M. destruct M as [M|M]; apply (In_nth _ _ 0%nat) in M; destruct M as (k & Hk & <-).
        * rewrite WA1 in Hk. rewrite (O2 false k Hk : m_get (nth k (wiresof las) 0%nat) v' = _). rewrite WA2 by exact Hk. reflexivity.
        * rewrite WB1 in Hk. rewrite (O2 true k Hk : m_get (nth k (wiresof lbs) 0%nat) v' = _). rewrite WB2 by exact Hk. reflexivity.
      + apply memb_not in M. apply O1, M.
    - cbv beta. intros ? P' s' _ _ [-> _]. split; [reflexivity|exact I]. }
  assert (LA : length las = (n / 2)%nat) by (pose proof (F2len A4) as E; unfold wiresof in E; rewrite !map_length, seq_length in E; exact E).
  assert (Nx : forall l lv j, hasl s2 l lv -> (j < length l)%nat -> oindex l j = Ok (nth j l e_zero) /\ has s2 (nth j l e_zero) (nth j lv 0)).
  { intros l lv j Hl Hj. destruct (hasl_nth _ _ _ Hl j Hj) as (x & E & _ & H). rewrite (oindex_ok l j e_zero Hj) in E |- *. injection E as ->. auto. }
  destruct (half n) as [(En & Ee & _)|(En & Ee & _)]; rewrite Ee in *.
  - destruct (Nx b bv (n - 2)%nat Hb ltac:(lia)) as [Ex Hx]. destruct (Nx b bv (n - 1)%nat Hb ltac:(lia)) as [Ey Hy].
    eapply comp_bind; [eapply comp_liftb; [exact Ex|]; eapply comp_liftb; [exact Ey|]; apply comp_ret with (Q := fun t P' s' => P' = P2 /\ s' = s2 /\
       t = (map (fun s => snd (fst s)) las, map (fun s => snd (fst s)) lbs ++ [nth (n - 2) b e_zero], map snd las, map snd lbs ++ [nth (n - 1) b e_zero])); auto|].
    cbv beta. intros t P3 s3 _ _ (-> & -> & ->).
    cbn [map] in H1, H2. rewrite app_nil_r in H1, H2.
    eapply Gen; [exact A2|apply hasl_app; [exact B2|constructor; [exact Hx|constructor]]|exact A3|apply hasl_app; [exact B3|constructor; [exact Hy|constructor]]|exact H1|exact H2| |];
      rewrite map_length, LA; lia.
  - destruct (Nx a av (n - 1)%nat Ha ltac:(fold n; lia)) as [Ex Hx]. destruct (Nx b bv (n - 1)%nat Hb ltac:(lia)) as [Ey Hy].
    eapply comp_bind; [eapply comp_liftb; [exact Ex|]; eapply comp_liftb; [exact Ey|]; apply comp_ret with (Q := fun t P' s' => P' = P2 /\ s' = s2 /\
       t = (map (fun s => snd (fst s)) las, map (fun s => snd (fst s)) lbs, map snd las ++ [nth (n - 1) a e_zero], map snd lbs ++ [nth (n - 1) b e_zero])); auto|].
    cbv beta. intros t P3 s3 _ _ (-> & -> & ->).
    cbn [map] in H1, H2. rewrite !app_nil_r in H1.
    eapply Gen; [exact A2|exact B2|apply hasl_app; [exact A3|constructor; [exact Hx|constructor]]|apply hasl_app; [exact B3|constructor; [exact Hy|constructor]]|exact H1|exact H2| |];
      rewrite ?app_length, map_length, LA; cbn [length]; lia.
Qed.

Lemma cmpl_fuel : forall f a b av bv P s, hasl s a av -> hasl s b bv -> Permutation av bv -> (length a < f)%nat ->
  comp D P s (assert_permutation_fuel f a b) (done P (fun _ _ => True)).
Proof using Hp.
  induction f as [|f IH]; intros a b av bv P s Ha Hb HP Hf; [lia|].
  pose proof (hasl_length _ _ _ Ha) as La. pose proof (hasl_length _ _ _ Hb) as Lb. pose proof (Permutation_length HP) as Lp.
  assert (L : length a = length b) by lia. assert (Eq : oassert (length a =? length b)%nat = Ok tt) by (rewrite L, Nat.eqb_refl; reflexivity).
  destruct (Nat.le_gt_cases 3 (length a)) as [G|G].
  - rewrite (fuel_unfold f a b G L). eapply comp_liftb; [exact Eq|]. eapply cmpl_net; try eassumption.
    intros a' b' av' bv' P' s' K1 K2 K3 K4. eapply IH; try eassumption. lia.
  - destruct a as [|x1 [|x2 [|x3 a]]]; cbn [length] in G; try lia; destruct b as [|y1 [|y2 [|y3 b]]]; cbn [length] in L; try discriminate; cbn [assert_permutation_fuel].
    + eapply comp_liftb; [exact Eq|]. apply comp_ret. split; auto.
    + eapply comp_liftb; [exact Eq|]. inversion Ha as [|? a1 ? ? H1 T1]; subst. inversion T1; subst. inversion Hb as [|? b1 ? ? H2 T2]; subst. inversion T2; subst.
      apply Permutation_length_1 in HP. subst b1.
      eapply comp_weaken; [apply (cmpl_assert_equal Hp) with (a := a1); assumption|]. cbv beta. intros ? P' s' _ _ [-> _]. split; auto.
    + eapply comp_liftb; [exact Eq|].
      inversion Ha as [|? a1 ? ? H1 T1]; subst. inversion T1 as [|? a2 ? ? H2 T2]; subst. inversion T2; subst.
      inversion Hb as [|? b1 ? ? H3 T3]; subst. inversion T3 as [|? b2 ? ? H4 T4]; subst. inversion T4; subst.
      eapply cmpl_2x2; eassumption.
Qed.
Lemma cmpl_assert_permutation a b av bv P s : hasl s a av -> hasl s b bv -> Permutation av bv ->
  comp D P s (assert_permutation a b) (done P (fun _ _ => True)).
Proof using Hp. intros Ha Hb HP. unfold assert_permutation. eapply cmpl_fuel; try eassumption. lia. Qed.
End Complete.
