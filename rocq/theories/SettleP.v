(** What [route] computes: the settings depend on the two value lists only, and with these settings the two
    halves of the network receive permuted lists. *)
From Coq Require Import ZArith List Bool Arith Lia Permutation.
From Verif Require Import Base FieldM ExprM ExprP BuilderM WaksmanM BimapP RouteP.
Import ListNotations.
Open Scope nat_scope.
Local Arguments Nat.ltb : simpl never.
Local Arguments Nat.div : simpl never.

(** ** two runs on different switch wires *)
Definition orel {A B} (R : A -> B -> Prop) (x : outcome A) (y : outcome B) : Prop :=
  match x, y with Ok a, Ok b => R a b | Panic, Panic => True | NoFuel, NoFuel => True | _, _ => False end.
Lemma orel_bind {A A' B B'} (R : A -> A' -> Prop) (S : B -> B' -> Prop) x y k k' :
  orel R x y -> (forall a a', R a a' -> orel S (k a) (k' a')) -> orel S (obind x k) (obind y k').
Proof. destruct x, y; cbn; auto; try tauto. Qed.
Lemma orel_fold {A S S'} (R : S -> S' -> Prop) (f : S -> A -> outcome S) (f' : S' -> A -> outcome S') l :
  (forall s s' a, In a l -> R s s' -> orel R (f s a) (f' s' a)) -> forall s s', R s s' -> orel R (ofold f l s) (ofold f' l s').
Proof.
  induction l as [|a l IH]; intros H s s' HR; cbn [ofold]; [exact HR|].
  eapply orel_bind; [apply H; [left; reflexivity|exact HR]|]. intros b b' Hb. apply IH; [|exact Hb]. intros. apply H; [right|]; assumption.
Qed.

Section Sim.
Context {F : Field} (bm : bimap) (sw1 sw2 : list wire * list wire).
Context (HL : forall side, length (sel side sw1) = length (sel side sw2))
  (D1 : NoDup (fst sw1 ++ snd sw1)) (D2 : NoDup (fst sw2 ++ snd sw2)).
Definition vsim (v1 v2 : values) : Prop := forall side k, k < num sw1 side -> m_get (wireof sw1 side k) v1 = m_get (wireof sw2 side k) v2.

Lemma num_eq side : num sw2 side = num sw1 side.
Proof using HL. unfold num. symmetry. apply HL. Qed.

Lemma sim_enqueue pr v1 v2 side i s : vsim v1 v2 ->
  enqueue_other_side sw1 bm pr v1 side i s = enqueue_other_side sw2 bm pr v2 side i s.
Proof using HL.
  intro V. unfold enqueue_other_side. destruct (ab_map_by_side bm side i) as [j| |]; cbn [obind]; [|reflexivity|reflexivity].
  rewrite (HL (negb side)). destruct (Nat.leb_spec (length (sel (negb side) sw2)) (j / 2)) as [L|L]; [reflexivity|].
  rewrite (oindex_ok (sel (negb side) sw2) _ 0 L). rewrite <- HL in L. rewrite (oindex_ok (sel (negb side) sw1) _ 0 L). cbn [obind].
  replace (v_contains v1 (nth (j / 2) (sel (negb side) sw1) 0)) with (v_contains v2 (nth (j / 2) (sel (negb side) sw2) 0)); [reflexivity|].
  unfold v_contains, m_mem. rewrite <- (V (negb side) (j / 2) L : m_get (nth _ (sel _ sw1) 0) v1 = m_get (nth _ (sel _ sw2) 0) v2). reflexivity.
Qed.

Lemma v_set_cases w x v : (m_get w v = None /\ exists v', v_set w x v = Ok v' /\ forall j, m_get j v' = if j =? w then Some x else m_get j v) \/
  (m_get w v <> None /\ v_set w x v = Panic).
Proof using.
  destruct (m_get w v) as [y|] eqn:E.
  - right. split; [discriminate|]. unfold v_set, m_mem. rewrite E. reflexivity.
  - left. split; [reflexivity|]. apply (v_set_fresh w x v E).
Qed.

Definition psim (s1 s2 : (list (nat * bool) * list (nat * bool)) * values) : Prop := fst s1 = fst s2 /\ vsim (snd s1) (snd s2).
Lemma sim_switch s1 s2 side k b : psim s1 s2 -> orel psim (route_switch sw1 bm s1 side k b) (route_switch sw2 bm s2 side k b).
Proof using HL D1 D2.
  destruct s1 as [pr v1], s2 as [pr2 v2]. intros [E V]. cbn [fst snd] in *. subst pr2. unfold route_switch, oindex.
  destruct (Nat.lt_ge_cases k (num sw1 side)) as [L|L].
  - rewrite (nth_error_nth' (sel side sw1) 0 L). rewrite <- num_eq in L. rewrite (nth_error_nth' (sel side sw2) 0 L). cbn [ounwrap obind].
    fold (wireof sw1 side k) (wireof sw2 side k). rewrite num_eq in L. specialize (V side k L) as Vk. unfold v_set_boolean.
    destruct (v_set_cases (wireof sw1 side k) (fbool b) v1) as [(N1 & w1 & -> & H1)|(N1 & ->)],
      (v_set_cases (wireof sw2 side k) (fbool b) v2) as [(N2 & w2 & -> & H2)|(N2 & ->)]; try congruence; [|exact I]. cbn [obind].
    assert (V' : vsim w1 w2).
    { intros s' k' L'. rewrite H1, H2. destruct (Nat.eqb_spec (wireof sw1 s' k') (wireof sw1 side k)) as [E|N].
      - apply (wireof_inj sw1 D1) in E; auto. destruct E as [-> ->]. rewrite Nat.eqb_refl. reflexivity.
      - destruct (Nat.eqb_spec (wireof sw2 s' k') (wireof sw2 side k)) as [E|_]; [|apply V, L'].
        apply (wireof_inj sw2 D2) in E; rewrite ?num_eq; auto. destruct E as [-> ->]. congruence. }
    rewrite (sim_enqueue pr w1 w2 side _ _ V'). destruct (enqueue_other_side sw2 bm pr w2 side (k * 2) b) as [pr1| |]; cbn [obind]; [|exact I|exact I].
    rewrite (sim_enqueue pr1 w1 w2 side _ _ V'). destruct (enqueue_other_side sw2 bm pr1 w2 side (k * 2 + 1) (negb b)); cbn [obind]; [|exact I|exact I].
    split; [reflexivity|exact V'].
  - assert (E1 : nth_error (sel side sw1) k = None) by (apply nth_error_None; exact L).
    assert (E2 : nth_error (sel side sw2) k = None) by (apply nth_error_None; rewrite <- HL; exact L). rewrite E1, E2. exact I.
Qed.

Lemma sim_scan v1 v2 side : vsim v1 v2 -> forall steps k, scan steps v1 (sel side sw1) k = scan steps v2 (sel side sw2) k.
Proof using HL.
  intro V. induction steps as [|m IH]; intro k; cbn [scan]; [reflexivity|].
  destruct (Nat.lt_ge_cases k (num sw1 side)) as [L|L].
  - rewrite (nth_error_nth' (sel side sw1) 0 L). rewrite <- num_eq in L. rewrite (nth_error_nth' (sel side sw2) 0 L). rewrite num_eq in L.
    specialize (V side k L). unfold wireof in V. unfold v_contains, m_mem. rewrite V, IH. reflexivity.
  - assert (E1 : nth_error (sel side sw1) k = None) by (apply nth_error_None; exact L).
    assert (E2 : nth_error (sel side sw2) k = None) by (apply nth_error_None; rewrite <- HL; exact L). rewrite E1, E2. reflexivity.
Qed.

Definition tsim (s1 s2 : (list (nat * bool) * list (nat * bool)) * values * (nat * nat)) : Prop := psim (fst s1) (fst s2) /\ snd s1 = snd s2.
Lemma sim_side s1 s2 side : tsim s1 s2 -> orel tsim (route_side sw1 bm s1 side) (route_side sw2 bm s2 side).
Proof using HL D1 D2.
  destruct s1 as [[pr v1] si], s2 as [[pr2 v2] si2]. intros [[E V] E2]. cbn [fst snd] in *. subst pr2 si2. unfold route_side.
  destruct (sel side pr) as [|e l].
  - rewrite HL, (sim_scan v1 v2 side V). set (k := scan _ _ _ _). destruct (k <? length (sel side sw2)).
    + eapply orel_bind; [apply sim_switch; split; [reflexivity|exact V]|]. intros [p1 w1] [p2 w2] [A B]. cbn [fst snd] in *. subst p2.
      split; [split; [reflexivity|exact B]|reflexivity].
    + split; [split; [reflexivity|exact V]|reflexivity].
  - eapply orel_bind; [apply (orel_fold psim); [|split; [reflexivity|exact V]]; intros; apply sim_switch; assumption|].
    intros [p1 w1] [p2 w2] [A B]. cbn [fst snd] in *. subst p2. split; [split; [reflexivity|exact B]|reflexivity].
Qed.

Lemma sim_loop : forall fuel s1 s2, tsim s1 s2 -> orel vsim (route_loop sw1 bm fuel s1) (route_loop sw2 bm fuel s2).
Proof using HL D1 D2.
  induction fuel as [|fuel IH]; intros s1 s2 T; [exact I|]. destruct s1 as [[pr v1] si], s2 as [[pr2 v2] si2]. cbn [route_loop].
  destruct T as [[E V] E2]. cbn [fst snd] in *. subst pr2 si2. pose proof (HL false) as L0. pose proof (HL true) as L1. cbn [sel] in L0, L1. rewrite L0, L1.
  destruct (_ || _); [|exact V].
  eapply orel_bind; [apply sim_side; split; [split; [reflexivity|exact V]|reflexivity]|]. intros t1 t2 T.
  eapply orel_bind; [apply sim_side, T|]. intros u1 u2 U. apply IH, U.
Qed.

Lemma sim_start n v1 v2 : vsim v1 v2 -> start n bm sw1 v1 = start n bm sw2 v2.
Proof using HL.
  intro V. unfold start. destruct (osub n 1) as [n1| |]; cbn [obind]; [|reflexivity|reflexivity]. destruct (Nat.even n).
  - destruct (osub n 2) as [n2| |]; cbn [obind]; [|reflexivity|reflexivity].
    rewrite (sim_enqueue _ v1 v2 true n2 false V). destruct (enqueue_other_side sw2 bm ([], []) v2 true n2 false); cbn [obind]; [|reflexivity|reflexivity].
    apply sim_enqueue, V.
  - rewrite (sim_enqueue _ v1 v2 false n1 true V). destruct (enqueue_other_side sw2 bm ([], []) v2 false n1 true); cbn [obind]; [|reflexivity|reflexivity].
    apply sim_enqueue, V.
Qed.
End Sim.

(** ** the canonical settings *)
Section Settle.
Context {F : Field} (Hord : (2 <= order)%Z).

Definition na (n : nat) : nat := n / 2.
Definition nb (n : nat) : nat := if Nat.even n then n / 2 - 1 else n / 2.
Definition numb (n : nat) (side : bool) : nat := if side then nb n else na n.
Definition dummy (n : nat) : list wire * list wire := (seq 0 (na n), seq (na n) (nb n)).
(** the settings found on dummy wires *)
Definition setting (av bv : list Z) (side : bool) (k : nat) : bool :=
  match route av bv (fst (dummy (length av))) (snd (dummy (length av))) [] with
  | Ok v => match m_get (wireof (dummy (length av)) side k) v with Some x => negb (x =? 0)%Z | None => false end
  | _ => false
  end.

Lemma bijection av bv bm : matches av bv bm -> length av = length bv -> exists f g,
  (forall i, i < length av -> f i < length av /\ g (f i) = i /\ bm_left bm i = Some (f i)) /\
  (forall j, j < length av -> g j < length av /\ f (g j) = j /\ bm_right bm j = Some (g j)) /\
  (forall i, i < length av -> nth i av 0%Z = nth (f i) bv 0%Z).
Proof using.
  intros [M1 M2] L.
  exists (fun i => match bm_left bm i with Some j => j | None => 0 end), (fun j => match bm_right bm j with Some i => i | None => 0 end).
  split; [|split].
  - intros i Hi. destruct (M1 i Hi) as (j & A & B & C & _). rewrite B, C. auto.
  - intros j Hj. destruct (M2 j Hj) as (i & A & B & C & _). rewrite C, B. auto.
  - intros i Hi. destruct (M1 i Hi) as (j & A & B & _ & E). rewrite B.
    assert (Hj : j < length bv) by lia. rewrite (nth_error_nth' av 0%Z Hi), (nth_error_nth' bv 0%Z Hj) in E. congruence.
Qed.

Lemma route_start av bv sw v : route av bv (fst sw) (snd sw) v =
  if length av =? length bv then
    let! bm := bimap_from_lists Z.eqb av bv in
    let! pr := start (length av) bm sw v in
    route_loop sw bm (S (2 * (length (fst sw) + length (snd sw)))) (pr, v, (0, 0))
  else Panic.
Proof using.
  unfold route, start. destruct (length av =? length bv); cbn [oassert obind]; [|reflexivity].
  destruct (bimap_from_lists Z.eqb av bv) as [bm| |]; cbn [obind]; [|reflexivity|reflexivity]. destruct sw as [s1 s2]. cbn [fst snd].
  destruct (osub (length av) 1); reflexivity.
Qed.

Definition sizes (n : nat) (sw : list wire * list wire) : Prop :=
  length (fst sw) = na n /\ length (snd sw) = nb n /\ NoDup (fst sw ++ snd sw).
Lemma dummy_sizes n : sizes n (dummy n).
Proof using.
  unfold sizes, dummy. cbn [fst snd]. rewrite !seq_length. split; [reflexivity|]. split; [reflexivity|].
  rewrite <- seq_app. apply seq_NoDup.
Qed.

(** The subnetwork an index goes to. *)
Definition goes (av bv : list Z) (side : bool) (i : nat) : bool :=
  if i / 2 <? numb (length av) side then xorb (setting av bv side (i / 2)) (Nat.odd i) else i =? length av - 1.

Lemma route_spec av bv : Permutation av bv -> 1 <= length av -> exists f g,
  (forall i, i < length av -> f i < length av /\ g (f i) = i /\ nth i av 0%Z = nth (f i) bv 0%Z) /\
  (forall j, j < length av -> g j < length av /\ f (g j) = j) /\
  (forall i, i < length av -> goes av bv false i = goes av bv true (f i)) /\
  forall sw v, sizes (length av) sw -> (forall w, In w (fst sw ++ snd sw) -> m_get w v = None) ->
    exists v', route av bv (fst sw) (snd sw) v = Ok v' /\ (forall w, ~ In w (fst sw ++ snd sw) -> m_get w v' = m_get w v) /\
      forall side k, k < numb (length av) side -> m_get (wireof sw side k) v' = Some (b2z (setting av bv side k)).
Proof using Hord.
  intros P Hn. destruct (bimap_from_lists_spec Z.eqb Z.eqb_eq av bv) as [S _]. destruct (S P) as (bm & Eb & Mb & _).
  pose proof (Permutation_length P) as Hlen. destruct (bijection av bv bm Mb Hlen) as (f & g & Hf & Hg & Hv). clear S.
  exists f, g. set (n := length av) in *.
  split; [intros i Hi; destruct (Hf i Hi) as (A & B & _); auto|].
  split; [intros j Hj; destruct (Hg j Hj) as (A & B & _); auto|].
  assert (Len : (n =? length bv) = true) by (apply Nat.eqb_eq; exact Hlen).
  assert (Run : forall sw v, sizes n sw -> (forall w, In w (fst sw ++ snd sw) -> m_get w v = None) ->
    exists v', route av bv (fst sw) (snd sw) v = Ok v' /\ grows sw v v' /\
      (forall side k, k < num sw side -> swv sw v' side k <> None) /\
      (forall i, i < n -> exists s, sub n sw v' false i = Some s /\ sub n sw v' true (f i) = Some s)).
  { intros sw v (L0 & L1 & D) Hu. rewrite route_start. fold n. rewrite Len, Eb. cbn [obind].
    apply (route_ok Hord n f g bm sw Hn Hf Hg L0 L1 D v Hu). }
  destruct (Run (dummy n) [] (dummy_sizes n)) as (v0 & R0 & G0 & A0 & C0); [reflexivity|].
  assert (Nd : forall side, num (dummy n) side = numb n side) by (intros []; unfold num, dummy, numb; cbn [sel fst snd]; apply seq_length).
  assert (Set0 : forall side k, k < numb n side -> swv (dummy n) v0 side k = Some (setting av bv side k) /\
                 m_get (wireof (dummy n) side k) v0 = Some (b2z (setting av bv side k))).
  { intros side k Hk. unfold setting, swv. fold n. rewrite R0. specialize (A0 side k ltac:(rewrite Nd; exact Hk)). unfold swv in A0.
    destruct (m_get (wireof (dummy n) side k) v0) as [x|] eqn:E; [|congruence]. split; [reflexivity|]. f_equal.
    destruct G0 as (_ & _ & G0). destruct (G0 _ x E eq_refl) as [->| ->]; reflexivity. }
  assert (Goes : forall side i, sub n (dummy n) v0 side i = Some (goes av bv side i)).
  { intros side i. unfold sub, goes. fold n. rewrite Nd. destruct (Nat.ltb_spec (i / 2) (numb n side)) as [L|L]; [|reflexivity].
    destruct (Set0 side (i / 2) L) as [-> _]. reflexivity. }
  split.
  - intros i Hi. destruct (C0 i Hi) as (s & E1 & E2). rewrite Goes in E1, E2. congruence.
  - intros sw v Hs Hu. destruct (Run sw v Hs Hu) as (v' & R & G & _ & _). exists v'. split; [exact R|]. split; [apply G|].
    intros side k Hk. destruct Hs as (L0 & L1 & D). destruct (dummy_sizes n) as (Z0 & Z1 & DD).
    assert (HL : forall s, length (sel s (dummy n)) = length (sel s sw)) by (intros []; cbn [sel]; congruence).
    assert (V0 : vsim (dummy n) sw [] v).
    { intros s j Hj. rewrite (Hu (wireof sw s j)); [reflexivity|]. apply wireof_in. unfold num. rewrite <- HL. exact Hj. }
    rewrite route_start in R, R0. fold n in R, R0. rewrite Len, Eb in R, R0. cbn [obind] in R, R0.
    rewrite (sim_start bm (dummy n) sw HL n [] v V0) in R0. destruct (start n bm sw v) as [pr| |]; cbn [obind] in R, R0; try discriminate.
    pose proof (HL false) as E0. pose proof (HL true) as E1. cbn [sel] in E0, E1. rewrite E0, E1 in R0.
    pose proof (sim_loop bm (dummy n) sw HL DD D (S (2 * (length (fst sw) + length (snd sw)))) (pr, [], (0, 0)) (pr, v, (0, 0))) as T.
    rewrite R, R0 in T. cbn [orel] in T. specialize (T ltac:(split; [split; [reflexivity|exact V0]|reflexivity])).
    rewrite <- (T side k) by (rewrite Nd; exact Hk). apply Set0, Hk.
Qed.

(** ** the lists the two halves receive *)
Definition pick (l : list Z) (s : nat -> bool) (b : bool) (m : nat) : list Z :=
  map (fun k => nth (2 * k + (if xorb (s k) b then 1 else 0)) l 0%Z) (seq 0 m).
Definition pick_idx (s : nat -> bool) (b : bool) (m : nat) : list nat := map (fun k => 2 * k + (if xorb (s k) b then 1 else 0)) (seq 0 m).

Lemma pick_idx_in s b m i : In i (pick_idx s b m) <-> i / 2 < m /\ xorb (s (i / 2)) (Nat.odd i) = b.
Proof using.
  unfold pick_idx. rewrite in_map_iff. split.
  - intros (k & <- & Hk). apply in_seq in Hk. destruct (xorb (s k) b) eqn:E.
    + rewrite half_of, odd_odd by lia. split; [lia|]. destruct (s k), b; cbn in *; congruence.
    + rewrite Nat.add_0_r, half_even, odd_even. split; [lia|]. destruct (s k), b; cbn in *; congruence.
  - intros [L E]. exists (i / 2). split; [|apply in_seq; lia].
    destruct (half i) as [(Ei & _ & Eo)|(Ei & _ & Eo)]; rewrite Eo in E; destruct (s (i / 2)), b; cbn in *; try discriminate; lia.
Qed.
Lemma pick_idx_nodup s b m : NoDup (pick_idx s b m).
Proof using.
  unfold pick_idx. apply FinFun.Injective_map_NoDup; [|apply seq_NoDup]. intros x y E.
  apply (f_equal (fun i => i / 2)) in E. rewrite !half_of in E by (destruct (xorb _ _); lia). exact E.
Qed.

(** index lists of the two sides for subnetwork [b] *)
Definition tail (n : nat) (side b : bool) : list nat :=
  if Nat.even n then (if side then [if b then n - 1 else n - 2] else []) else (if b then [n - 1] else []).
Definition idx (av bv : list Z) (side b : bool) : list nat :=
  pick_idx (setting av bv side) b (numb (length av) side) ++ tail (length av) side b.
Lemma idx_in av bv side b i : 2 <= length av -> (In i (idx av bv side b) <-> i < length av /\ goes av bv side i = b).
Proof using.
  intro Hn. unfold idx, goes. rewrite in_app_iff, pick_idx_in. set (n := length av) in *. unfold tail, numb, na, nb.
  destruct (half n) as [(En & Ee & _)|(En & Ee & _)]; rewrite Ee; destruct side.
  - assert (T : In i [if b then n - 1 else n - 2] <-> n / 2 - 1 <= i / 2 /\ i < n /\ (i =? n - 1) = b).
    { cbn. split.
      - intros [<-|[]]. destruct b.
        + replace (n - 1) with (2 * (n / 2 - 1) + 1) by lia. rewrite half_of by lia. split; [lia|]. split; [lia|]. apply Nat.eqb_eq. lia.
        + replace (n - 2) with (2 * (n / 2 - 1)) by lia. rewrite half_even. split; [lia|]. split; [lia|]. apply Nat.eqb_neq. lia.
      - intros (L1 & L2 & E). left. destruct b; [apply Nat.eqb_eq in E|apply Nat.eqb_neq in E]; destruct (half i) as [(Ei & _)|(Ei & _)]; lia. }
    rewrite T. destruct (Nat.ltb_spec (i / 2) (n / 2 - 1)) as [L|L]; [|intuition lia].
    assert (i < n) by (apply half_lt in L; lia). intuition lia.
  - destruct (Nat.ltb_spec (i / 2) (n / 2)) as [L|L].
    + assert (i < n) by (apply half_lt in L; lia). cbn [In]. intuition.
    + assert (~ i < n) by (intro X; assert (i < 2 * (n / 2)) as Y by lia; apply half_lt in Y; lia). cbn [In]. intuition lia.
  - assert (T : In i (if b then [n - 1] else []) <-> n / 2 <= i / 2 /\ i < n /\ (i =? n - 1) = b).
    { split.
      - destruct b; cbn; [intros [<-|[]]|tauto]. replace (n - 1) with (2 * (n / 2)) by lia. rewrite half_even. split; [lia|]. split; [lia|]. apply Nat.eqb_eq. lia.
      - intros (L1 & L2 & E). assert (i = n - 1) by (destruct (half i) as [(Ei & _)|(Ei & _)]; lia). subst i. rewrite Nat.eqb_refl in E. subst b. left. reflexivity. }
    rewrite T. destruct (Nat.ltb_spec (i / 2) (n / 2)) as [L|L]; [|intuition lia].
    assert (i < n) by (apply half_lt in L; lia). intuition lia.
  - assert (T : In i (if b then [n - 1] else []) <-> n / 2 <= i / 2 /\ i < n /\ (i =? n - 1) = b).
    { split.
      - destruct b; cbn; [intros [<-|[]]|tauto]. replace (n - 1) with (2 * (n / 2)) by lia. rewrite half_even. split; [lia|]. split; [lia|]. apply Nat.eqb_eq. lia.
      - intros (L1 & L2 & E). assert (i = n - 1) by (destruct (half i) as [(Ei & _)|(Ei & _)]; lia). subst i. rewrite Nat.eqb_refl in E. subst b. left. reflexivity. }
    rewrite T. destruct (Nat.ltb_spec (i / 2) (n / 2)) as [L|L]; [|intuition lia].
    assert (i < n) by (apply half_lt in L; lia). intuition lia.
Qed.
Lemma idx_nodup av bv side b : NoDup (idx av bv side b).
Proof using.
  unfold idx. set (n := length av).
  assert (H : tail n side b = [] \/ exists x, tail n side b = [x] /\ numb n side <= x / 2).
  { unfold tail, numb, na, nb. destruct (half n) as [(En & Ee & _)|(En & Ee & _)]; rewrite Ee; destruct side, b; auto; right; eexists; (split; [reflexivity|]).
    - destruct (n / 2) as [|q] eqn:Eq; [cbn in En; subst; cbn; lia|]. replace (n - 1) with (2 * q + 1) by lia. rewrite half_of; lia.
    - destruct (n / 2) as [|q] eqn:Eq; [cbn in En; subst; cbn; lia|]. replace (n - 2) with (2 * q) by lia. rewrite half_even; lia.
    - replace (n - 1) with (2 * (n / 2)) by lia. rewrite half_even. lia.
    - replace (n - 1) with (2 * (n / 2)) by lia. rewrite half_even. lia. }
  destruct H as [->|(x & -> & Hx)]; [rewrite app_nil_r; apply pick_idx_nodup|].
  eapply Permutation_NoDup; [apply Permutation_cons_append|]. constructor; [|apply pick_idx_nodup].
  rewrite pick_idx_in. lia.
Qed.

Lemma halves_permuted av bv b : Permutation av bv -> 2 <= length av ->
  Permutation (map (fun i => nth i av 0%Z) (idx av bv false b)) (map (fun i => nth i bv 0%Z) (idx av bv true b)).
Proof using Hord.
  intros P Hn. destruct (route_spec av bv P ltac:(lia)) as (f & g & Hf & Hg & Hgo & _).
  rewrite (map_ext_in _ (fun i => nth (f i) bv 0%Z)).
  2:{ intros i Hi. apply idx_in in Hi; [|exact Hn]. destruct Hi as [Hi _]. apply Hf, Hi. }
  rewrite <- (map_map f (fun i => nth i bv 0%Z)). apply Permutation_map. apply NoDup_Permutation.
  - assert (Inj : forall l, (forall i, In i l -> i < length av) -> NoDup l -> NoDup (map f l)).
    { induction l as [|x l IH]; intros Hl ND; cbn; [constructor|]. apply NoDup_cons_iff in ND. destruct ND as [N1 N2].
      constructor; [|apply IH; [intros; apply Hl; right; assumption|exact N2]]. intro C. apply in_map_iff in C. destruct C as (y & E & Hy).
      apply N1. destruct (Hf x (Hl x (or_introl eq_refl))) as (_ & Ex & _). destruct (Hf y (Hl y (or_intror Hy))) as (_ & Ey & _). congruence. }
    apply Inj; [|apply idx_nodup]. intros i Hi. apply idx_in in Hi; tauto.
  - apply idx_nodup.
  - intro j. rewrite in_map_iff, (idx_in av bv true b j Hn). split.
    + intros (i & <- & Hi). apply idx_in in Hi; [|exact Hn]. destruct Hi as [Hi E]. split; [apply Hf, Hi|]. rewrite <- Hgo by exact Hi. exact E.
    + intros [Hj E]. destruct (Hg j Hj) as [A B]. exists (g j). split; [exact B|]. apply idx_in; [exact Hn|]. split; [exact A|]. rewrite Hgo, B by exact A. exact E.
Qed.

Lemma map_idx av bv side b l : map (fun i => nth i l 0%Z) (idx av bv side b) =
  pick l (setting av bv side) b (numb (length av) side) ++ map (fun i => nth i l 0%Z) (tail (length av) side b).
Proof using. unfold idx, pick, pick_idx. rewrite map_app, map_map. reflexivity. Qed.
End Settle.
