(** Generators refuse wires that already have values, except the routers of permutation networks; no generator of the library runs forever. *)
From Coq Require Import ZArith List Bool Arith Lia Permutation.
From Verif Require Import Base FieldM FieldP ExprM BuilderM GadgetsM CryptoM WaksmanM CurveM Spec ExprP BitsP MonoP LocalP SoundP HonestP ExecP CoreP
  BimapP RouteP SettleP WaksmanP CryptoP MatrixP SpongeP CmpCompleteP SortP.
Import ListNotations.
Open Scope nat_scope.

Definition unset_in (o : list nat) (v : values) : Prop := forall k, In k o -> m_get k v = None.
(** The generator only succeeds when none of the wires [o] has a value. *)
Definition stops_on (o : list nat) (run : values -> outcome values) : Prop := forall v v', run v = Ok v' -> unset_in o v /\ NoDup o.
(** The generator of a permutation network, with its switches: verify_permutation.rs 124-131. *)
Definition router {F : Field} (deps o : list nat) (run : values -> outcome values) : Prop := exists a b sa sb,
  3 <= length a /\ 1 <= length sa /\ o = sa ++ sb /\ deps = flat_map e_deps a ++ flat_map e_deps b /\
  forall v, run v = (let! av := omap (e_evaluate v) a in let! bv := omap (e_evaluate v) b in route av bv sa sb v).

Section Runs.
Context {F : Field}.
Lemma omap_total {A C} (f : A -> outcome C) l : (forall a, f a <> NoFuel) -> omap f l <> NoFuel.
Proof.
  intro H. induction l as [|a l IH]; cbn [omap]; [discriminate|]. specialize (H a). destruct (f a); cbn [obind]; try congruence.
  destruct (omap f l); cbn [obind]; congruence.
Qed.
Lemma el_from_total n : el_from n <> NoFuel.
Proof. unfold el_from. destruct (n <? order)%Z; discriminate. Qed.
Lemma finv_total x : finv x <> NoFuel.
Proof.
  unfold finv. destruct (x =? 0)%Z; [discriminate|]. pose proof (el_from_total 2) as H. destruct (el_from 2); cbn [obind]; congruence.
Qed.
Lemma obind_ok {A C} (r : outcome A) (k : A -> outcome C) c : obind r k = Ok c -> exists a, r = Ok a /\ k a = Ok c.
Proof. destruct r as [a| |]; cbn [obind]; intro H; try discriminate. exists a. auto. Qed.
Lemma obind_total {A C} (r : outcome A) (k : A -> outcome C) : r <> NoFuel -> (forall a, k a <> NoFuel) -> obind r k <> NoFuel.
Proof. destruct r; cbn [obind]; intros H1 H2; [apply H2|discriminate|congruence]. Qed.
Lemma v_set_total k x v : v_set k x v <> NoFuel.
Proof. unfold v_set. destruct (m_get k v); discriminate. Qed.
Lemma oindex_total {A} (l : list A) i : oindex l i <> NoFuel.
Proof. unfold oindex, ounwrap. destruct (nth_error l i); discriminate. Qed.
Lemma oassert_total b : oassert b <> NoFuel.
Proof. destruct b; discriminate. Qed.
Lemma finv_or_zero_total x : finv_or_zero x <> NoFuel.
Proof. unfold finv_or_zero. destruct (_ =? _)%Z; [discriminate|apply finv_total]. Qed.
Lemma fdiv_total x y : fdiv x y <> NoFuel.
Proof. unfold fdiv. pose proof (finv_total y) as H. destruct (finv y); cbn [obind]; congruence. Qed.
Lemma int_div_total c d : integer_division c d <> NoFuel.
Proof. unfold integer_division; destruct (d =? 0)%Z; [discriminate|apply el_from_total]. Qed.
Lemma int_mod_total c d : integer_modulus c d <> NoFuel.
Proof. unfold integer_modulus; destruct (d =? 0)%Z; [discriminate|apply el_from_total]. Qed.
Lemma ofold_total {A S} (f : S -> A -> outcome S) l : (forall s a, f s a <> NoFuel) -> forall s, ofold f l s <> NoFuel.
Proof. intro H. induction l as [|a l IH]; intro s; cbn [ofold]; [discriminate|]. apply obind_total; [apply H|apply IH]. Qed.

(** a loop that sets one wire per round *)
Lemma fold_sets {A S} (val : S -> values) (k : A -> nat) (f : S -> A -> outcome S) l :
  (forall s a s', In a l -> f s a = Ok s' -> m_get (k a) (val s) = None /\ m_get (k a) (val s') <> None /\ forall j, m_get j (val s) <> None -> m_get j (val s') <> None) ->
  forall s s', ofold f l s = Ok s' -> unset_in (map k l) (val s) /\ NoDup (map k l).
Proof.
  induction l as [|a l IH]; intros H s s' E; cbn [ofold map] in *; [split; [intros j []|constructor]|].
  apply obind_ok in E. destruct E as (s1 & E1 & E2). destruct (H s a s1 (or_introl eq_refl) E1) as (H1 & H2 & H3).
  destruct (IH (fun s a s' Hi => H s a s' (or_intror Hi)) s1 s' E2) as [U N]. split.
  - intros j [<-|Hj]; [exact H1|]. specialize (U j Hj). destruct (m_get j (val s)) eqn:Ej; [|reflexivity]. exfalso. apply (H3 j); [congruence|exact U].
  - constructor; [|exact N]. intro Hi. apply H2, U, Hi.
Qed.
Lemma set_step k x v v' : v_set k x v = Ok v' -> m_get k v = None /\ m_get k v' <> None /\ forall j, m_get j v <> None -> m_get j v' <> None.
Proof.
  intro E. destruct (v_set_ok k x v v' E) as [N G]. split; [exact N|]. split; [rewrite G, Nat.eqb_refl; discriminate|].
  intros j Hj. rewrite G. destruct (j =? k); [discriminate|exact Hj].
Qed.
Lemma stops_one k x v v' : v_set k x v = Ok v' -> unset_in [k] v /\ NoDup [k].
Proof. intro E. destruct (set_step k x v v' E) as [N _]. split; [intros j [<-|[]]; exact N|constructor; [intros []|constructor]]. Qed.
Lemma stops_two k1 x1 k2 x2 v v1 v' : v_set k1 x1 v = Ok v1 -> v_set k2 x2 v1 = Ok v' -> unset_in [k1; k2] v /\ NoDup [k1; k2].
Proof.
  intros E1 E2. destruct (set_step _ _ _ _ E1) as (N1 & S1 & K1), (set_step _ _ _ _ E2) as (N2 & S2 & K2). split.
  - intros j [<-|[<-|[]]]; [exact N1|]. destruct (m_get k2 v) eqn:E; [|reflexivity]. exfalso. apply (K1 k2); congruence.
  - constructor; [intros [->|[]]; congruence|]. constructor; [intros []|constructor].
Qed.
End Runs.

Ltac inv_ok H := repeat match type of H with
  | obind ?r ?k = Ok _ => apply obind_ok in H; let a := fresh "a" in let E := fresh "E" in destruct H as (a & E & H); cbv beta in H
  end.
Ltac total := repeat first
  [ apply obind_total; [|intro]
  | apply e_evaluate_total | apply v_set_total | apply finv_total | apply fdiv_total | apply oassert_total | apply oindex_total | apply finv_or_zero_total
  | apply int_div_total | apply int_mod_total | apply omap_total; intro | apply ofold_total; intros | discriminate
  | match goal with |- (if ?b then _ else _) <> NoFuel => destruct b end ].
Ltac nofuel := let v := fresh "v" in intro v; cbn [g_run]; cbv zeta; unfold v_set_boolean, v_set_binary_unsigned; total.

Section Stop.
Context {F : Field}.
(** ** The router stops on every input: each round sets a switch or moves a scan forward *)
Definition free (l : list wire) (v : values) : nat := length (filter (fun w => negb (v_contains v w)) l).
Lemma free_le l v v' : keeps v v' -> free l v' <= free l v.
Proof.
  intro K. unfold free. induction l as [|w l IH]; cbn [filter length]; [lia|].
  assert (C : v_contains v w = true -> v_contains v' w = true).
  { unfold v_contains, m_mem. destruct (m_get w v) as [x|] eqn:E; [|discriminate]. rewrite (K w x E). reflexivity. }
  destruct (v_contains v w) eqn:E1; [rewrite (C eq_refl); cbn [negb]; exact IH|]. destruct (v_contains v' w); cbn [negb length]; lia.
Qed.
Lemma free_lt l v v' w : keeps v v' -> In w l -> m_get w v = None -> m_get w v' <> None -> free l v' < free l v.
Proof.
  intros K I N S. unfold free. induction l as [|u l IH]; [destruct I|]. cbn [filter length].
  pose proof (free_le [u] v v' K) as H1. pose proof (free_le l v v' K) as H2. unfold free in H1, H2. cbn [filter length] in H1.
  destruct I as [->|I].
  - assert (C1 : v_contains v w = false) by (unfold v_contains, m_mem; rewrite N; reflexivity).
    assert (C2 : v_contains v' w = true) by (unfold v_contains, m_mem; destruct (m_get w v'); congruence).
    rewrite C1, C2. cbn [negb length]. lia.
  - specialize (IH I). destruct (v_contains v u), (v_contains v' u); cbn [negb length] in *; lia.
Qed.
Lemma free_bound l v : free l v <= length l.
Proof. unfold free. induction l as [|w l IH]; cbn [filter length]; [lia|]. destruct (negb _); cbn [length]; lia. Qed.
Lemma enqueue_total sw bm pr v side i s : enqueue_other_side sw bm pr v side i s <> NoFuel.
Proof.
  unfold enqueue_other_side, ab_map_by_side, osub, ounwrap. apply obind_total; [destruct (if side then _ else _); discriminate|]. intro j.
  destruct (_ <=? _); [discriminate|]. apply obind_total; [apply oindex_total|]. intro w. destruct (v_contains v w); [discriminate|].
  apply obind_total; [destruct (_ <=? _); discriminate|]. intro k. destruct (pr_get _ _); [apply obind_total; [apply oassert_total|discriminate]|].
  destruct (pr_get _ _); [apply obind_total; [apply oassert_total|discriminate]|discriminate].
Qed.
Lemma switch_total sw bm s side k b : route_switch sw bm s side k b <> NoFuel.
Proof.
  unfold route_switch. destruct s as [pr v]. apply obind_total; [apply oindex_total|intro]. apply obind_total; [apply v_set_total|intro].
  apply obind_total; [apply enqueue_total|intro]. apply obind_total; [apply enqueue_total|discriminate].
Qed.
Lemma side_total sw bm s side : route_side sw bm s side <> NoFuel.
Proof.
  unfold route_side. destruct s as [[pr v] si]. destruct (sel side pr) as [|e l].
  - destruct (_ <? _); [|discriminate]. apply obind_total; [apply switch_total|intros []; discriminate].
  - apply obind_total; [apply ofold_total; intros; apply switch_total|intros []; discriminate].
Qed.
Lemma switch_frees sw bm s side k b s' : route_switch sw bm s side k b = Ok s' -> free (fst sw ++ snd sw) (snd s') < free (fst sw ++ snd sw) (snd s).
Proof.
  intro E. pose proof (route_switch_keeps _ _ _ _ _ _ _ E) as K. destruct s as [pr v]. unfold route_switch in E. cbn [snd] in *.
  apply obind_ok in E. destruct E as (w & Ew & E). apply obind_ok in E. destruct E as (v1 & E1 & E). apply obind_ok in E. destruct E as (p1 & _ & E).
  apply obind_ok in E. destruct E as (p2 & _ & E). inversion E; subst. cbn [snd] in *. destruct (set_step _ _ _ _ E1) as (N & S & _).
  apply (free_lt _ _ _ w); auto. unfold oindex, ounwrap in Ew. destruct (nth_error (sel side sw) k) as [u|] eqn:En; inversion Ew; subst.
  apply nth_error_In in En. apply in_or_app. destruct side; cbn [sel] in En; auto.
Qed.
Lemma scan_le steps v ws : forall k, k <= scan steps v ws k.
Proof.
  induction steps as [|n IH]; intro k; cbn [scan]; [lia|]. destruct (nth_error ws k) as [w|]; [|lia]. destruct (v_contains v w); [|lia].
  specialize (IH (S k)). lia.
Qed.
Definition rank (sw : list wire * list wire) (s : (list (nat * bool) * list (nat * bool)) * values * (nat * nat)) : nat :=
  free (fst sw ++ snd sw) (snd (fst s)) + (length (fst sw) - fst (snd s)) + (length (snd sw) - snd (snd s)).
Lemma side_rank sw bm s side s' : route_side sw bm s side = Ok s' ->
  rank sw s' <= rank sw s /\ (sel side (snd s) < length (sel side sw) -> rank sw s' < rank sw s) /\ sel (negb side) (snd s') = sel (negb side) (snd s).
Proof.
  unfold route_side, rank. destruct s as [[pr v] [s0 s1]]. cbn [fst snd]. destruct (sel side pr) as [|e l] eqn:Ep.
  - pose proof (scan_le (length (sel side sw) - sel side (s0, s1)) v (sel side sw) (sel side (s0, s1))) as L. set (k := scan _ _ _ _) in *. clearbody k.
    destruct (Nat.ltb_spec k (length (sel side sw))) as [Hk|Hk]; intro E.
    + apply obind_ok in E. destruct E as ([pr' v'] & E1 & E). pose proof (switch_frees _ _ _ _ _ _ _ E1) as Fr. inversion E; subst. cbn [fst snd] in *.
      destruct side; cbn [sel WaksmanM.upd fst snd negb] in *; repeat split; try lia.
    + inversion E; subst. cbn [fst snd]. destruct side; cbn [sel WaksmanM.upd fst snd negb] in *; repeat split; try lia.
  - intro E. apply obind_ok in E. destruct E as ([pr' v'] & E1 & E). cbn [ofold] in E1. apply obind_ok in E1. destruct E1 as (s2 & E1 & E2).
    pose proof (switch_frees _ _ _ _ _ _ _ E1) as Fr. pose proof (route_fold_keeps _ _ _ _ _ _ _ _ E2) as K. apply (free_le (fst sw ++ snd sw)) in K.
    inversion E; subst. cbn [fst snd] in *. repeat split; lia.
Qed.
Lemma loop_total sw bm : forall fuel s, rank sw s < fuel -> route_loop sw bm fuel s <> NoFuel.
Proof.
  induction fuel as [|f IH]; intros s L; [lia|]. cbn [route_loop]. destruct s as [[pr v] si] eqn:Es.
  destruct (_ || _) eqn:C; [|discriminate]. rewrite <- Es in *.
  pose proof (side_total sw bm s false) as T1. destruct (route_side sw bm s false) as [s1| |] eqn:E1; cbn [obind]; [|discriminate|congruence].
  pose proof (side_total sw bm s1 true) as T2. destruct (route_side sw bm s1 true) as [s2| |] eqn:E2; cbn [obind]; [|discriminate|congruence].
  apply IH. destruct (side_rank _ _ _ _ _ E1) as (R1 & S1 & O1), (side_rank _ _ _ _ _ E2) as (R2 & S2 & _). rewrite Es in *. cbn [fst snd sel negb] in *.
  apply orb_prop in C. destruct C as [C|C]; apply Nat.ltb_lt in C; [specialize (S1 C); lia|]. rewrite O1 in S2. specialize (S2 C). lia.
Qed.
Lemma bimap_total av bv : bimap_from_lists Z.eqb av bv <> NoFuel.
Proof.
  unfold bimap_from_lists. apply obind_total; [apply oassert_total|intro]. apply obind_total; [|discriminate]. apply ofold_total. intros s iv.
  destruct (pos_pop _ _ _) as [[j m']|]; discriminate.
Qed.
Lemma route_total av bv sa sb v : route av bv sa sb v <> NoFuel.
Proof.
  unfold route. apply obind_total; [apply oassert_total|intros _]. apply obind_total; [apply bimap_total|intro bm].
  assert (T : forall n k, osub n k <> NoFuel) by (intros n k; unfold osub; destruct (_ <=? _); discriminate).
  apply obind_total; [apply T|intro n1]. apply obind_total; [|intro pr].
  - destruct (Nat.even _); [apply obind_total; [apply T|intro]|]; (apply obind_total; [apply enqueue_total|intro]; apply enqueue_total).
  - apply loop_total. unfold rank. cbn [fst snd]. pose proof (free_bound (sa ++ sb) v) as B. rewrite app_length in B. lia.
Qed.
End Stop.

(** ** A router all of whose switches have values already leaves them as they are *)
Section Router.
Context {F : Field}.
Lemma enqueue_all_set sw bm pr v side i s j : (forall w, In w (fst sw ++ snd sw) -> v_contains v w = true) -> ab_map_by_side bm side i = Ok j ->
  enqueue_other_side sw bm pr v side i s = Ok pr.
Proof.
  intros H E. unfold enqueue_other_side. rewrite E. cbn [obind]. destruct (Nat.leb_spec (length (sel (negb side) sw)) (j / 2)) as [L|L]; [reflexivity|].
  rewrite (oindex_ok _ _ 0 L). cbn [obind]. rewrite H; [reflexivity|]. apply in_or_app. assert (I : In (nth (j / 2) (sel (negb side) sw) 0) (sel (negb side) sw)) by (apply nth_In, L).
  destruct side; cbn [sel negb] in *; auto.
Qed.
Lemma scan_all_set v ws : (forall w, In w ws -> v_contains v w = true) -> forall k, k <= length ws -> scan (length ws - k) v ws k = length ws.
Proof.
  intros H k Hk. remember (length ws - k) as n eqn:En. revert k Hk En. induction n as [|n IH]; intros k Hk En; cbn [scan]; [lia|].
  rewrite (nth_error_nth' ws 0) by lia. rewrite H by (apply nth_In; lia). apply IH; lia.
Qed.
Lemma route_all_set av bv sa sb v : Permutation av bv -> 3 <= length av -> 1 <= length sa -> (forall w, In w (sa ++ sb) -> m_get w v <> None) -> route av bv sa sb v = Ok v.
Proof.
  intros P Ln La H. assert (HC : forall w, In w (fst (sa, sb) ++ snd (sa, sb)) -> v_contains v w = true).
  { cbn [fst snd]. intros w Hw. specialize (H w Hw). unfold v_contains, m_mem. destruct (m_get w v); congruence. }
  pose proof (Permutation_length P) as LL. pose proof (route_start av bv (sa, sb) v) as R. cbn [fst snd] in R. rewrite R. clear R.
  rewrite <- LL, Nat.eqb_refl. destruct (proj1 (bimap_from_lists_spec Z.eqb Z.eqb_eq av bv) P) as (bm & -> & M & _). cbn [obind].
  destruct (bijection av bv bm M LL) as (f & g & B1 & B2 & _).
  assert (AB : forall side i, i < length av -> exists j, ab_map_by_side bm side i = Ok j).
  { intros side i Hi. unfold ab_map_by_side, ounwrap. destruct side; [destruct (B2 i Hi) as (_ & _ & ->)|destruct (B1 i Hi) as (_ & _ & ->)]; eauto. }
  assert (ST : start (length av) bm (sa, sb) v = Ok ([], [])).
  { unfold start, osub. replace (1 <=? length av) with true by (symmetry; apply Nat.leb_le; lia). cbn [obind].
    destruct (Nat.even (length av)).
    - replace (2 <=? length av) with true by (symmetry; apply Nat.leb_le; lia). cbn [obind].
      destruct (AB true (length av - 2) ltac:(lia)) as (j1 & E1), (AB true (length av - 1) ltac:(lia)) as (j2 & E2).
      rewrite (enqueue_all_set _ _ _ _ _ _ _ _ HC E1). cbn [obind]. exact (enqueue_all_set _ _ _ _ _ _ _ _ HC E2).
    - destruct (AB false (length av - 1) ltac:(lia)) as (j1 & E1), (AB true (length av - 1) ltac:(lia)) as (j2 & E2).
      rewrite (enqueue_all_set _ _ _ _ _ _ _ _ HC E1). cbn [obind]. exact (enqueue_all_set _ _ _ _ _ _ _ _ HC E2). }
  rewrite ST. cbn [obind]. destruct sa as [|w0 sa']; [cbn [length] in La; lia|]. set (sa := w0 :: sa') in *.
  assert (K0 : scan (length sa - 0) v sa 0 = length sa) by (apply scan_all_set; [intros w Hw; apply HC, in_or_app; auto|lia]).
  assert (K1 : scan (length sb - 0) v sb 0 = length sb) by (apply scan_all_set; [intros w Hw; apply HC, in_or_app; auto|lia]).
  replace (S (2 * (length sa + length sb))) with (S (S (2 * (length sa + length sb) - 1))) by (cbn [length sa] in *; lia).
  generalize (2 * (length sa + length sb) - 1) as fuel. intro fuel.
  cbn [route_loop fst snd]. replace (0 <? length sa) with true by (symmetry; apply Nat.ltb_lt; cbn [length sa]; lia). cbn [orb].
  unfold route_side at 1. cbn [sel fst snd]. rewrite K0, Nat.ltb_irrefl. cbn [obind WaksmanM.upd fst snd].
  unfold route_side at 1. cbn [sel fst snd]. rewrite K1, Nat.ltb_irrefl. cbn [obind WaksmanM.upd fst snd].
  rewrite !Nat.ltb_irrefl. reflexivity.
Qed.
End Router.
