(** The routing algorithm of the AS-Waksman network: it always terminates, never panics, and the settings it
    finds send equal positions to the same subnetwork. *)
From Coq Require Import ZArith List Bool Arith Lia Permutation.
From Verif Require Import Base FieldM ExprM ExprP BuilderM WaksmanM BimapP.
Import ListNotations.
Open Scope nat_scope.

Local Arguments Nat.ltb : simpl never.
Local Arguments Nat.div : simpl never.

(** ** the union of two perfect matchings can be 2-coloured *)
Definition matching (l : list nat) (s : nat -> nat) : Prop := forall x, In x l -> In (s x) l /\ s x <> x /\ s (s x) = x.

Lemma two_matchings : forall n l s t, length l <= n -> NoDup l -> matching l s -> matching l t ->
  exists c : nat -> bool, forall x, In x l -> c (s x) = negb (c x) /\ c (t x) = negb (c x).
Proof.
  induction n as [|n IH]; intros l s t L ND Ms Mt.
  { destruct l; [|cbn in L; lia]. exists (fun _ => false). intros x []. }
  destruct l as [|x l0]; [exists (fun _ => false); intros x []|]. set (l := x :: l0) in *.
  assert (Ix : In x l) by (left; reflexivity).
  destruct (Ms x Ix) as (Is & Ns & Ss). set (y := s x) in *. destruct (Mt x Ix) as (Itx & Ntx & Stx). destruct (Mt y Is) as (Ity & Nty & Sty).
  set (l' := filter (fun z => negb (z =? x) && negb (z =? y)) l).
  assert (Hl' : forall z, In z l' <-> In z l /\ z <> x /\ z <> y).
  { intro z. unfold l'. rewrite filter_In, andb_true_iff, !negb_true_iff, !Nat.eqb_neq. tauto. }
  assert (ND' : NoDup l') by (apply NoDup_filter, ND).
  assert (L' : length l' <= n).
  { assert (length (x :: y :: l') <= length l); [|cbn in *; lia]. apply NoDup_incl_length.
    - constructor; [|constructor; [|exact ND']].
      + intros [E|E]; [congruence|]. apply Hl' in E. tauto.
      + intro E. apply Hl' in E. tauto.
    - intros z [<-|[<-|E]]; [exact Ix|exact Is|]. apply Hl' in E. tauto. }
  assert (Inj : forall u a b, matching l u -> In a l -> In b l -> u a = u b -> a = b).
  { intros u a b Mu Ha Hb E. destruct (Mu a Ha) as (_ & _ & A3). destruct (Mu b Hb) as (_ & _ & B3). congruence. }
  assert (Ms' : matching l' s).
  { intros z Hz. apply Hl' in Hz. destruct Hz as (Hz & Z1 & Z2). destruct (Ms z Hz) as (A1 & A2 & A3).
    split; [|auto]. apply Hl'. split; [exact A1|]. split; intro E.
    - apply Z2. unfold y. congruence.
    - apply Z1. apply (Inj s z x Ms Hz Ix E). }
  set (t' := fun z => if z =? t x then t y else if z =? t y then t x else t z).
  destruct (Nat.eq_dec (t x) y) as [Exy|Nxy].
  - assert (Eyx : t y = x) by congruence.
    assert (Mt' : matching l' t).
    { intros z Hz. apply Hl' in Hz. destruct Hz as (Hz & Z1 & Z2). destruct (Mt z Hz) as (A1 & A2 & A3).
      split; [|auto]. apply Hl'. split; [exact A1|]. split; intro E.
      - apply Z2. rewrite <- A3, E. exact Exy.
      - apply Z1. rewrite <- A3, E. exact Eyx. }
    destruct (IH l' s t L' ND' Ms' Mt') as (c & Hc).
    exists (fun z => if z =? x then false else if z =? y then true else c z). intros z Hz.
    destruct (Nat.eqb_spec z x) as [->|Nzx].
    + fold y. rewrite Exy. destruct (Nat.eqb_spec y x); [congruence|]. rewrite Nat.eqb_refl. auto.
    + destruct (Nat.eqb_spec z y) as [->|Nzy]; [rewrite Ss, Eyx, Nat.eqb_refl; auto|].
      assert (Hz' : In z l') by (apply Hl'; auto). destruct (Hc z Hz') as [C1 C2].
      destruct (Ms' z Hz') as (A1 & _). destruct (Mt' z Hz') as (B1 & _). apply Hl' in A1, B1.
      destruct (Nat.eqb_spec (s z) x); [tauto|]. destruct (Nat.eqb_spec (s z) y); [tauto|].
      destruct (Nat.eqb_spec (t z) x); [tauto|]. destruct (Nat.eqb_spec (t z) y); [tauto|]. auto.
  - assert (Nyx : t y <> x) by (intro E; apply Nxy; rewrite <- E; exact Sty).
    assert (Nt : t x <> t y) by (intro E; apply Ns; symmetry; exact (Inj t x y Mt Ix Is E)).
    assert (Htx : In (t x) l') by (apply Hl'; auto). assert (Hty : In (t y) l') by (apply Hl'; auto).
    assert (Mt' : matching l' t').
    { intros z Hz. unfold t'. destruct (Nat.eqb_spec z (t x)) as [->|N1].
      - split; [exact Hty|]. split; [congruence|]. destruct (Nat.eqb_spec (t y) (t x)); [congruence|]. rewrite Nat.eqb_refl. reflexivity.
      - destruct (Nat.eqb_spec z (t y)) as [->|N2].
        + split; [exact Htx|]. split; [congruence|]. rewrite Nat.eqb_refl. reflexivity.
        + apply Hl' in Hz. destruct Hz as (Hz & Z1 & Z2). destruct (Mt z Hz) as (A1 & A2 & A3).
          destruct (Nat.eqb_spec (t z) (t x)) as [E|_]; [exfalso; apply Z1; exact (Inj t z x Mt Hz Ix E)|].
          destruct (Nat.eqb_spec (t z) (t y)) as [E|_]; [exfalso; apply Z2; exact (Inj t z y Mt Hz Is E)|].
          split; [|auto]. apply Hl'. split; [exact A1|]. split; intro E; [apply N1|apply N2]; congruence. }
    destruct (IH l' s t' L' ND' Ms' Mt') as (c & Hc).
    exists (fun z => if z =? x then negb (c (t x)) else if z =? y then negb (c (t y)) else c z).
    assert (Cxy : c (t y) = negb (c (t x))).
    { destruct (Hc (t x) Htx) as [_ C]. unfold t' in C. rewrite Nat.eqb_refl in C. exact C. }
    intros z Hz. destruct (Nat.eqb_spec z x) as [->|Nzx].
    + fold y. destruct (Nat.eqb_spec y x); [congruence|]. rewrite Nat.eqb_refl.
      destruct (Nat.eqb_spec (t x) x); [congruence|]. destruct (Nat.eqb_spec (t x) y); [congruence|].
      rewrite Cxy, !negb_involutive. auto.
    + destruct (Nat.eqb_spec z y) as [->|Nzy].
      * rewrite Ss, Nat.eqb_refl. destruct (Nat.eqb_spec (t y) x); [congruence|]. destruct (Nat.eqb_spec (t y) y); [congruence|].
        rewrite Cxy, !negb_involutive. auto.
      * assert (Hz' : In z l') by (apply Hl'; auto). destruct (Hc z Hz') as [C1 C2]. destruct (Ms' z Hz') as (A1 & _). apply Hl' in A1.
        destruct (Nat.eqb_spec (s z) x); [tauto|]. destruct (Nat.eqb_spec (s z) y); [tauto|]. split; [exact C1|].
        destruct (Mt z Hz) as (B1 & B2 & B3).
        destruct (Nat.eqb_spec (t z) x) as [E|E1].
        { assert (z = t x) by congruence. subst z. reflexivity. }
        destruct (Nat.eqb_spec (t z) y) as [E|E2].
        { assert (z = t y) by congruence. subst z. reflexivity. }
        unfold t' in C2. destruct (Nat.eqb_spec z (t x)) as [->|]; [congruence|]. destruct (Nat.eqb_spec z (t y)) as [->|]; [congruence|]. exact C2.
Qed.

(** ** siblings *)
Definition sib (i : nat) : nat := 4 * (i / 2) + 1 - i.
Lemma half i : (i = 2 * (i / 2) /\ Nat.even i = true /\ Nat.odd i = false) \/ (i = 2 * (i / 2) + 1 /\ Nat.even i = false /\ Nat.odd i = true).
Proof.
  pose proof (Nat.div_mod i 2 ltac:(lia)) as E. pose proof (Nat.mod_upper_bound i 2 ltac:(lia)) as B. rewrite <- Nat.negb_even.
  destruct (Nat.even i) eqn:Ev; [left|right]; (split; [|auto]).
  - apply Nat.even_spec in Ev. destruct Ev as [m ->]. rewrite (Nat.mul_comm 2 m), Nat.div_mul by lia. lia.
  - rewrite <- Nat.negb_odd in Ev. apply negb_false_iff, Nat.odd_spec in Ev. destruct Ev as [m ->].
    rewrite (Nat.mul_comm 2 m), Nat.div_add_l by lia. change (1 / 2) with 0. lia.
Qed.
Lemma half_of k r : r < 2 -> (2 * k + r) / 2 = k.
Proof. intro H. rewrite (Nat.mul_comm 2 k), Nat.div_add_l by lia. rewrite (Nat.div_small r 2) by exact H. lia. Qed.
Lemma half_even k : (2 * k) / 2 = k.
Proof. rewrite <- (Nat.add_0_r (2 * k)). apply half_of. lia. Qed.
Lemma odd_even k : Nat.odd (2 * k) = false.
Proof. rewrite <- Nat.negb_even, Nat.even_mul. reflexivity. Qed.
Lemma odd_odd k : Nat.odd (2 * k + 1) = true.
Proof. rewrite Nat.add_1_r, Nat.odd_succ, Nat.even_mul. reflexivity. Qed.
Lemma sib_even k : sib (2 * k) = 2 * k + 1.
Proof. unfold sib. rewrite half_even. lia. Qed.
Lemma sib_odd k : sib (2 * k + 1) = 2 * k.
Proof. unfold sib. rewrite half_of by lia. lia. Qed.
Lemma sib_half i : sib i / 2 = i / 2.
Proof. destruct (half i) as [(-> & _)|(-> & _)]; rewrite ?sib_even, ?sib_odd, ?half_even, ?half_of by lia; lia. Qed.
Lemma sib_sib i : sib (sib i) = i.
Proof. destruct (half i) as [(-> & _)|(-> & _)]; rewrite ?sib_even, ?sib_odd, ?sib_even; reflexivity. Qed.
Lemma sib_neq i : sib i <> i.
Proof. destruct (half i) as [(E & _)|(E & _)]; rewrite E, ?sib_even, ?sib_odd; lia. Qed.
Lemma sib_parity i : Nat.odd (sib i) = negb (Nat.odd i).
Proof. destruct (half i) as [(E & _ & ->)|(E & _ & ->)]; rewrite E, ?sib_even, ?sib_odd, ?odd_even, ?odd_odd; reflexivity. Qed.
Lemma sib_lt i m : i < 2 * m -> sib i < 2 * m.
Proof. intro H. destruct (half i) as [(E & _)|(E & _)]; rewrite E, ?sib_even, ?sib_odd; lia. Qed.
Lemma same_half i j : i / 2 = j / 2 -> i = j \/ i = sib j.
Proof.
  intro E. destruct (half i) as [(A & _)|(A & _)], (half j) as [(B & _)|(B & _)]; rewrite A, B, E, ?sib_even, ?sib_odd; auto.
Qed.

Lemma sel_upd {A} side (x : A) p : sel side (upd side x p) = x.
Proof. destruct side; reflexivity. Qed.
Lemma sel_upd_other {A} side (x : A) p : sel (negb side) (upd side x p) = sel (negb side) p.
Proof. destruct side; reflexivity. Qed.
Lemma sel_upd_neq {A} s1 s2 (x : A) p : s1 <> s2 -> sel s1 (upd s2 x p) = sel s1 p.
Proof. destruct s1, s2; congruence || reflexivity. Qed.
Lemma upd_sel {A} side (p : A * A) : upd side (sel side p) p = p.
Proof. destruct side, p; reflexivity. Qed.
Lemma side_cases (s side : bool) : s = side \/ s = negb side.
Proof. destruct s, side; auto. Qed.

(** ** pending routes as finite maps *)
Definition halves (l : list (nat * bool)) : list nat := map (fun e => fst e / 2) l.
Lemma pr_get_in k x l : pr_get k l = Some x -> In (k, x) l.
Proof. induction l as [|[k' x'] l IH]; cbn; [discriminate|]. destruct (Nat.eqb_spec k k'); [intro E; injection E as ->; subst; auto|auto]. Qed.
Lemma pr_get_none k l : pr_get k l = None -> ~ In k (map fst l).
Proof. induction l as [|[k' x'] l IH]; cbn; [tauto|]. destruct (Nat.eqb_spec k k'); [discriminate|]. intros H [E|E]; [congruence|]. exact (IH H E). Qed.
Lemma pr_insert_in k x l e : In e (pr_insert k x l) -> e = (k, x) \/ In e l.
Proof.
  induction l as [|[k' x'] l IH]; cbn; [intros [<-|[]]; auto|]. destruct (k <? k'); [cbn; intros [<-|H]; auto|].
  destruct (Nat.eqb_spec k k'); [cbn; intros [<-|H]; auto|]. cbn. intros [<-|H]; [auto|]. specialize (IH H). tauto.
Qed.
Lemma pr_insert_halves k x l h : In h (halves (pr_insert k x l)) <-> h = k / 2 \/ In h (halves l).
Proof.
  unfold halves. induction l as [|[k' x'] l IH]; cbn; [intuition|]. destruct (k <? k'); [cbn; intuition|].
  destruct (Nat.eqb_spec k k') as [->|]; cbn; [intuition|]. rewrite IH. intuition.
Qed.
Lemma pr_insert_fresh k x l : pr_get k l = None -> Permutation (pr_insert k x l) ((k, x) :: l).
Proof.
  induction l as [|[k' x'] l IH]; cbn; [reflexivity|]. destruct (Nat.eqb_spec k k') as [->|N]; [discriminate|]. intro H.
  destruct (k <? k'); [reflexivity|]. rewrite (IH H). apply perm_swap.
Qed.
Fixpoint keys_sorted (l : list (nat * bool)) : Prop :=
  match l with [] => True | e :: l' => Forall (fun e' => fst e < fst e') l' /\ keys_sorted l' end.
Lemma pr_insert_same k x l : pr_get k l = Some x -> keys_sorted l -> pr_insert k x l = l.
Proof.
  induction l as [|[k' x'] l IH]; cbn; [discriminate|]. destruct (Nat.eqb_spec k k') as [->|N].
  - intros E _. injection E as ->. rewrite Nat.ltb_irrefl. reflexivity.
  - intros H [S1 S2]. destruct (Nat.ltb_spec k k') as [L|L]; [|f_equal; apply IH; assumption].
    apply pr_get_in in H. rewrite Forall_forall in S1. specialize (S1 _ H). cbn in S1. lia.
Qed.
Lemma pr_insert_sorted k x l : keys_sorted l -> keys_sorted (pr_insert k x l).
Proof.
  induction l as [|[k' x'] l IH]; cbn; [auto|]. intros [S1 S2]. destruct (Nat.ltb_spec k k') as [L|L].
  - cbn. split; [|auto]. constructor; [exact L|]. eapply Forall_impl; [|exact S1]. cbn. lia.
  - destruct (Nat.eqb_spec k k') as [->|N]; cbn; [auto|]. split; [|auto]. rewrite Forall_forall in *. intros e He.
    apply pr_insert_in in He. destruct He as [->|He]; [cbn; lia|apply S1, He].
Qed.

Lemma oindex_ok {A} (l : list A) k d : k < length l -> oindex l k = Ok (nth k l d).
Proof. intro H. unfold oindex. rewrite (nth_error_nth' l d H). reflexivity. Qed.

Lemma half_lt i m : i / 2 < m <-> i < 2 * m.
Proof. destruct (half i) as [(E & _)|(E & _)]; lia. Qed.

Section Route.
Context {F : Field} (Hord : (2 <= order)%Z).
Context (n : nat) (f g : nat -> nat) (bm : bimap) (sw : list wire * list wire).
Context (Hn : 1 <= n)
  (Hf : forall i, i < n -> f i < n /\ g (f i) = i /\ bm_left bm i = Some (f i))
  (Hg : forall j, j < n -> g j < n /\ f (g j) = j /\ bm_right bm j = Some (g j))
  (HN0 : length (fst sw) = n / 2) (HN1 : length (snd sw) = if Nat.even n then n / 2 - 1 else n / 2)
  (HD : NoDup (fst sw ++ snd sw)).

Definition num (side : bool) : nat := length (sel side sw).
Definition oth (side : bool) (i : nat) : nat := if side then g i else f i.
Definition fixed (i : nat) : bool := i =? n - 1.

Lemma num_le side : 2 * num side <= n.
Proof using Hn HN0 HN1. unfold num. destruct side; cbn [sel]; rewrite ?HN0, ?HN1; destruct (half n) as [(E & E2 & _)|(E & E2 & _)]; rewrite ?E2; lia. Qed.
Lemma sib_lt_n side i : i / 2 < num side -> sib i < n.
Proof using Hn HN0 HN1. intro H. pose proof (num_le side). apply half_lt, sib_lt in H. lia. Qed.
Lemma oth_lt side i : i < n -> oth side i < n.
Proof using Hf Hg. unfold oth. destruct side; [apply Hg|apply Hf]. Qed.
Lemma oth_oth side i : i < n -> oth (negb side) (oth side i) = i.
Proof using Hf Hg. unfold oth. destruct side; cbn [negb]; [apply Hg|apply Hf]. Qed.
Lemma ab_ok side i : i < n -> ab_map_by_side bm side i = Ok (oth side i).
Proof using Hf Hg. intro H. unfold ab_map_by_side, oth. destruct side; [destruct (Hg i H) as (_ & _ & ->)|destruct (Hf i H) as (_ & _ & ->)]; reflexivity. Qed.

(** *** settings *)
Definition wireof (side : bool) (k : nat) : wire := nth k (sel side sw) 0.
Definition swv (v : values) (side : bool) (k : nat) : option bool :=
  match m_get (wireof side k) v with Some x => Some (negb (x =? 0)%Z) | None => None end.
Definition sub (v : values) (side : bool) (i : nat) : option bool :=
  if i / 2 <? num side then option_map (fun s => xorb s (Nat.odd i)) (swv v side (i / 2)) else Some (fixed i).

Lemma wireof_in side k : k < num side -> In (wireof side k) (fst sw ++ snd sw).
Proof using. unfold num, wireof. intro H. apply in_app_iff. destruct side; [right|left]; apply nth_In, H. Qed.
Lemma wireof_inj s1 k1 s2 k2 : k1 < num s1 -> k2 < num s2 -> wireof s1 k1 = wireof s2 k2 -> s1 = s2 /\ k1 = k2.
Proof using HD.
  clear - HD. unfold num, wireof. intros H1 H2 E. pose proof HD as D. rewrite (NoDup_nth _ 0) in D.
  destruct s1, s2; cbn [sel] in *.
  - split; [reflexivity|]. specialize (D (length (fst sw) + k1) (length (fst sw) + k2)). rewrite !app_length in D.
    rewrite !app_nth2 in D by lia. replace (length (fst sw) + k1 - length (fst sw)) with k1 in D by lia. replace (length (fst sw) + k2 - length (fst sw)) with k2 in D by lia. specialize (D ltac:(lia) ltac:(lia) E). lia.
  - specialize (D (length (fst sw) + k1) k2). rewrite !app_length in D. rewrite app_nth2, app_nth1 in D by lia.
    replace (length (fst sw) + k1 - length (fst sw)) with k1 in D by lia. specialize (D ltac:(lia) ltac:(lia) E). lia.
  - specialize (D k1 (length (fst sw) + k2)). rewrite !app_length in D. rewrite app_nth1, app_nth2 in D by lia.
    replace (length (fst sw) + k2 - length (fst sw)) with k2 in D by lia. specialize (D ltac:(lia) ltac:(lia) E). lia.
  - split; [reflexivity|]. apply (D k1 k2); rewrite ?app_length, ?app_nth1; lia || exact E.
Qed.

Lemma sub_sib v side i : i / 2 < num side -> sub v side (sib i) = option_map negb (sub v side i).
Proof using Hn HN1 HN0.
  intro H. unfold sub. rewrite sib_half, sib_parity. destruct (Nat.ltb_spec (i / 2) (num side)); [|lia].
  destruct (swv v side (i / 2)) as [[]|]; cbn; destruct (Nat.odd i); reflexivity.
Qed.
Lemma sub_none v side i : sub v side i = None <-> i / 2 < num side /\ swv v side (i / 2) = None.
Proof using Hn HN1 HN0.
  unfold sub. destruct (Nat.ltb_spec (i / 2) (num side)); [|intuition (discriminate || lia)].
  destruct (swv v side (i / 2)); cbn; intuition discriminate.
Qed.

(** *** colourings *)
Definition col (c : nat -> bool) (side : bool) (i : nat) : bool := if side then c (g i) else c i.
Definition valid (c : nat -> bool) : Prop := forall side i, i < n ->
  (i / 2 < num side -> col c side (sib i) = negb (col c side i)) /\ (num side <= i / 2 -> col c side i = fixed i).
Lemma col_oth c side i : i < n -> col c (negb side) (oth side i) = col c side i.
Proof using Hf Hg. intro H. unfold col, oth. destruct side; cbn [negb]; [reflexivity|]. destruct (Hf i H) as (_ & -> & _). reflexivity. Qed.

Lemma colouring_exists : exists c, valid c.
Proof using Hn Hf Hg HN0 HN1.
  set (m := if Nat.even n then n else n + 1). set (f' := fun i => if i <? n then f i else i). set (g' := fun i => if i <? n then g i else i).
  assert (Em : exists q, m = 2 * q) by (unfold m; destruct (half n) as [(E & -> & _)|(E & -> & _)]; [exists (n / 2)|exists (n / 2 + 1)]; lia).
  destruct Em as (q & Em). assert (Hm : n <= m <= n + 1) by (unfold m; destruct (Nat.even n); lia).
  assert (F1 : forall i, i < m -> f' i < m /\ g' (f' i) = i).
  { intros i Hi. unfold f', g'. destruct (Nat.ltb_spec i n) as [L|L].
    - destruct (Hf i L) as (A1 & A2 & _). destruct (Nat.ltb_spec (f i) n); [|lia]. split; [lia|exact A2].
    - split; [exact Hi|]. destruct (Nat.ltb_spec i n); [lia|reflexivity]. }
  assert (G1 : forall i, i < m -> g' i < m /\ f' (g' i) = i).
  { intros i Hi. unfold f', g'. destruct (Nat.ltb_spec i n) as [L|L].
    - destruct (Hg i L) as (A1 & A2 & _). destruct (Nat.ltb_spec (g i) n); [|lia]. split; [lia|exact A2].
    - split; [exact Hi|]. destruct (Nat.ltb_spec i n); [lia|reflexivity]. }
  assert (Sl : forall i, i < m -> sib i < m) by (intros i Hi; rewrite Em in *; apply sib_lt, Hi).
  destruct (two_matchings m (seq 0 m) sib (fun i => g' (sib (f' i)))) as (c0 & Hc0).
  - rewrite seq_length. lia.
  - apply seq_NoDup.
  - intros x Hx. rewrite in_seq in *. split; [specialize (Sl x); lia|]. split; [apply sib_neq|apply sib_sib].
  - intros x Hx. rewrite in_seq in *. destruct (F1 x ltac:(lia)) as [A1 A2]. destruct (G1 (sib (f' x)) (Sl _ A1)) as [B1 B2].
    split; [lia|]. split; [intro E; rewrite <- A2 in E at 2; apply (f_equal f') in E; rewrite B2 in E|rewrite B2, sib_sib; exact A2].
    destruct (G1 (f' x) A1) as [_ B3]. rewrite B3 in E. exact (sib_neq _ E).
  - assert (C1 : forall i, i < m -> c0 (sib i) = negb (c0 i)) by (intros i Hi; apply Hc0, in_seq; lia).
    assert (C2 : forall j, j < m -> c0 (g' (sib j)) = negb (c0 (g' j))).
    { intros j Hj. destruct (G1 j Hj) as [A1 A2]. destruct (Hc0 (g' j) ltac:(apply in_seq; lia)) as [_ C]. cbv beta in C. rewrite A2 in C. exact C. }
    set (e := c0 (g' (m - 1))).
    set (c := fun i => xorb (c0 i) (if Nat.even n then negb e else e)).
    assert (X : forall a b z, a = negb b -> xorb a z = negb (xorb b z)) by (intros [] [] []; cbn; congruence).
    assert (D1 : forall i, i < m -> c (sib i) = negb (c i)) by (intros i Hi; apply X, C1, Hi).
    assert (D2 : forall j, j < m -> c (g' (sib j)) = negb (c (g' j))) by (intros j Hj; apply X, C2, Hj).
    assert (Gn : forall j, j < n -> g' j = g j) by (intros j Hj; unfold g'; destruct (Nat.ltb_spec j n); [reflexivity|lia]).
    exists c. intros side i Hi. pose proof (num_le side) as NL. split.
    + intro H. unfold col. destruct side; [|apply D1; lia]. rewrite <- !Gn; [apply D2; lia|exact Hi|]. apply (sib_lt_n true), H.
    + intro H. assert (E1 : c (g' (m - 1)) = Nat.even n) by (unfold c; fold e; destruct (Nat.even n), e; reflexivity).
      unfold num in *. unfold fixed, col. destruct (half n) as [(En & Ee & _)|(En & Ee & _)]; rewrite Ee in *; destruct side; cbn [sel] in *.
      * assert (i / 2 = n / 2 - 1) as Hk by (assert (i < 2 * (n / 2)) by lia; apply half_lt in H0; lia).
        assert (m = n) by (unfold m; rewrite Ee; reflexivity). rewrite H0 in E1.
        assert (E2 : c (g' (sib (n - 1))) = false) by (rewrite D2, E1 by lia; reflexivity).
        assert (sib (n - 1) = n - 2) as Es.
        { replace (n - 1) with (2 * (n / 2 - 1) + 1) by (pose proof (half_lt i (n / 2)); lia). rewrite sib_odd. lia. }
        rewrite Es in E2. destruct (half i) as [(Ei & _)|(Ei & _)].
        -- replace i with (n - 2) by lia. rewrite <- Gn by lia. rewrite E2. symmetry. apply Nat.eqb_neq. lia.
        -- replace i with (n - 1) by lia. rewrite <- Gn by lia. rewrite E1, Nat.eqb_refl. reflexivity.
      * assert (i < 2 * (n / 2)) by lia. apply half_lt in H0. lia.
      * assert (Ei : i = n - 1) by (destruct (half i) as [(Ei & _)|(Ei & _)]; lia). subst i. rewrite Nat.eqb_refl.
        assert (m = n + 1) by (unfold m; rewrite Ee; reflexivity). rewrite <- Gn by lia.
        replace (n - 1) with (sib (m - 1)); [rewrite D2, E1 by lia; reflexivity|].
        replace (m - 1) with (2 * (n / 2) + 1) by lia. rewrite sib_odd. lia.
      * assert (Ei : i = n - 1) by (destruct (half i) as [(Ei & _)|(Ei & _)]; lia). subst i. rewrite Nat.eqb_refl.
        assert (m = n + 1) by (unfold m; rewrite Ee; reflexivity).
        assert (Eg : g' (m - 1) = n) by (unfold g'; destruct (Nat.ltb_spec (m - 1) n); lia). rewrite Eg in E1.
        replace (n - 1) with (sib n); [rewrite D1, E1 by lia; reflexivity|]. rewrite En at 1. rewrite sib_odd. lia.
Qed.

(** *** the invariant *)
Definition PI (c : nat -> bool) (v : values) (side : bool) (l : list (nat * bool)) : Prop :=
  Forall (fun e => fst e / 2 < num side /\ swv v side (fst e / 2) = None /\ col c side (fst e) = snd e) l /\
  NoDup (halves l) /\ keys_sorted l.
Definition covered (v : values) (side : bool) (l : list (nat * bool)) (j : nat) : Prop :=
  sub v side j <> None \/ In (j / 2) (halves l).
Definition follows (c : nat -> bool) (v : values) : Prop := forall side i s, i < n -> sub v side i = Some s -> col c side i = s.
Record J (c : nat -> bool) (Q : list (nat * bool) * list (nat * bool)) (v : values) : Prop := mkJ {
  j_valid : valid c;
  j_follows : follows c v;
  j_pend : forall side, PI c v side (sel side Q);
  j_closed : forall side i, i < n -> sub v side i <> None -> covered v (negb side) (sel (negb side) Q) (oth side i) }.

Lemma swv_none_contains v side k : k < num side -> (v_contains v (wireof side k) = false <-> swv v side k = None).
Proof using. intros _. unfold swv, v_contains, m_mem. destruct (m_get _ v); intuition congruence. Qed.

Lemma enqueue_ok c pr v side i s : valid c -> PI c v (negb side) (sel (negb side) pr) -> i < n -> col c side i = s ->
  exists l, enqueue_other_side sw bm pr v side i s = Ok (upd (negb side) l pr) /\ PI c v (negb side) l /\
    (forall h, In h (halves (sel (negb side) pr)) -> In h (halves l)) /\ covered v (negb side) l (oth side i) /\
    (sub v (negb side) (oth side i) <> None -> l = sel (negb side) pr).
Proof using Hn Hf Hg HN0 HN1.
  intros V (P1 & P2 & P3) Hi Hs. set (o := negb side) in *. pose proof (oth_lt side i Hi) as Ho. set (j := oth side i) in *.
  assert (Cj : col c o j = s) by (unfold o, j; rewrite col_oth by exact Hi; exact Hs).
  assert (Keep : covered v o (sel o pr) j -> exists l, Ok pr = Ok (upd o l pr) /\ PI c v o l /\
    (forall h, In h (halves (sel o pr)) -> In h (halves l)) /\ covered v o l j /\ (sub v o j <> None -> l = sel o pr)).
  { intro Hc. exists (sel o pr). rewrite upd_sel. split; [reflexivity|]. split; [split; auto|]. auto. }
  unfold enqueue_other_side. rewrite (ab_ok side i Hi). cbn [obind]. fold o j. change (length (sel o sw)) with (num o).
  destruct (Nat.leb_spec (num o) (j / 2)) as [L|L].
  { apply Keep. left. unfold sub. destruct (Nat.ltb_spec (j / 2) (num o)); [lia|discriminate]. }
  rewrite (oindex_ok (sel o sw) (j / 2) 0 L). cbn [obind]. fold (wireof o (j / 2)).
  destruct (v_contains v (wireof o (j / 2))) eqn:Ec.
  { apply Keep. left. intro E. apply sub_none in E. destruct E as [_ E]. apply (swv_none_contains v o (j / 2) L) in E. congruence. }
  apply (swv_none_contains v o (j / 2) L) in Ec.
  unfold osub. destruct (Nat.leb_spec j (4 * (j / 2) + 1)) as [_|L2]; [|destruct (half j) as [(E & _)|(E & _)]; lia]. cbn [obind]. fold (sib j).
  rewrite Forall_forall in P1. destruct (pr_get (sib j) (sel o pr)) as [s'|] eqn:Eg.
  - apply pr_get_in in Eg. destruct (P1 _ Eg) as (_ & _ & E3). cbn [fst snd] in E3.
    destruct (V o j Ho) as [V1 _]. rewrite (V1 L), Cj in E3. rewrite <- E3.
    replace (negb (Bool.eqb s (negb s))) with true by (destruct s; reflexivity). cbn [oassert obind]. apply Keep. right.
    apply in_map_iff. exists (sib j, s'). split; [cbn [fst]; apply sib_half|exact Eg].
  - destruct (pr_get j (sel o pr)) as [s'|] eqn:Ej.
    + pose proof (pr_get_in _ _ _ Ej) as Ei. destruct (P1 _ Ei) as (_ & _ & E3). cbn [fst snd] in E3.
      replace s' with s in * by congruence. rewrite Bool.eqb_reflx. cbn [oassert obind].
      rewrite (pr_insert_same _ _ _ Ej P3), upd_sel. apply Keep. right. apply in_map_iff. exists (j, s). auto.
    + exists (pr_insert j s (sel o pr)). split; [reflexivity|]. split; [|split; [|split]].
      * split; [|split; [|apply pr_insert_sorted, P3]].
        -- rewrite Forall_forall. intros e He. apply pr_insert_in in He. destruct He as [->|He]; [auto|apply P1, He].
        -- eapply Permutation_NoDup; [symmetry; apply Permutation_map, pr_insert_fresh, Ej|]. cbn [map fst]. constructor; [|exact P2].
           intro C. apply in_map_iff in C. destruct C as ([k x] & E1 & E2). cbn [fst] in E1. apply same_half in E1.
           destruct E1 as [->| ->]; [apply pr_get_none in Ej; apply Ej|apply pr_get_none in Eg; apply Eg]; apply in_map_iff; eexists; split; [|exact E2| |exact E2]; reflexivity.
      * intros h Hh. apply pr_insert_halves. auto.
      * right. apply pr_insert_halves. auto.
      * intro H. exfalso. apply H, sub_none. auto.
Qed.

(** setting one switch *)
Definition sets (v v' : values) (side : bool) (k : nat) (s : bool) : Prop :=
  forall j, m_get j v' = if j =? wireof side k then Some (b2z s) else m_get j v.
Lemma set_boolean_ok v side k s : k < num side -> swv v side k = None ->
  exists v', v_set_boolean (wireof side k) s v = Ok v' /\ sets v v' side k s.
Proof using Hord.
  intros Hk H. unfold v_set_boolean.
  destruct (v_set_fresh (wireof side k) (fbool s) v) as (v' & E & Hv).
  - unfold swv in H. destruct (m_get _ v); congruence.
  - exists v'. split; [exact E|]. intro j. rewrite Hv. replace (fbool s) with (b2z s); [reflexivity|]. destruct s; unfold fbool, fone, fzero; reflexivity.
Qed.
Lemma swv_sets v v' side k s : sets v v' side k s -> k < num side -> forall s2 k2, k2 < num s2 ->
  swv v' s2 k2 = if Bool.eqb s2 side && (k2 =? k) then Some s else swv v s2 k2.
Proof using HD n Hn HN1 HN0.
  intros H Hk s2 k2 Hk2. unfold swv. rewrite H. destruct (Nat.eqb_spec (wireof s2 k2) (wireof side k)) as [E|N].
  - apply wireof_inj in E; auto. destruct E as [-> ->]. rewrite Bool.eqb_reflx, Nat.eqb_refl. destruct s; reflexivity.
  - destruct (Bool.eqb_spec s2 side) as [->|]; [|reflexivity]. destruct (Nat.eqb_spec k2 k) as [->|]; [congruence|reflexivity].
Qed.
Lemma sub_sets v v' side k s : sets v v' side k s -> k < num side -> forall s2 i,
  sub v' s2 i = if Bool.eqb s2 side && (i / 2 =? k) then Some (xorb s (Nat.odd i)) else sub v s2 i.
Proof using HD Hn HN1 HN0.
  intros H Hk s2 i. unfold sub. destruct (Nat.ltb_spec (i / 2) (num s2)) as [L|L].
  - rewrite (swv_sets v v' side k s H Hk s2 (i / 2) L). destruct (Bool.eqb s2 side && (i / 2 =? k)); reflexivity.
  - destruct (Bool.eqb_spec s2 side) as [->|]; [|reflexivity]. destruct (Nat.eqb_spec (i / 2) k); [lia|reflexivity].
Qed.

Lemma route_switch_ok c pr v side k s l : J c (upd side l pr) v -> k < num side -> swv v side k = None -> col c side (2 * k) = s ->
  exists pr' v', route_switch sw bm (pr, v) side k s = Ok (pr', v') /\ sel side pr' = sel side pr /\ sets v v' side k s /\
    J c (upd side (filter (fun e => negb (fst e / 2 =? k)) l) pr') v'.
Proof using Hn Hf Hg HN0 HN1 HD Hord.
  intros [V Fo Pe Cl] Hk Hu Hc. unfold route_switch. rewrite (oindex_ok (sel side sw) k 0 Hk). cbn [obind]. fold (wireof side k).
  destruct (set_boolean_ok v side k s Hk Hu) as (v' & -> & Hs). cbn [obind].
  pose proof (sub_sets v v' side k s Hs Hk) as Sub. pose proof (swv_sets v v' side k s Hs Hk) as Swv.
  pose proof (num_le side) as NL.
  assert (Npar : forall b, Bool.eqb (negb b) b = false) by (intros []; reflexivity).
  assert (Po : PI c v' (negb side) (sel (negb side) pr)).
  { pose proof (Pe (negb side)) as P. rewrite sel_upd_other in P. destruct P as (P1 & P2). split; [|exact P2].
    rewrite Forall_forall in *. intros e He. destruct (P1 e He) as (E1 & E2 & E3). rewrite (Swv _ _ E1), Npar. auto. }
  assert (C2 : col c side (2 * k + 1) = negb s).
  { destruct (V side (2 * k) ltac:(lia)) as [V1 _]. rewrite half_even, sib_even, Hc in V1. auto. }
  replace (k * 2) with (2 * k) by lia.
  destruct (enqueue_ok c pr v' side (2 * k) s V Po ltac:(lia) Hc) as (l1 & -> & P1 & M1 & K1 & Y1). cbn [obind].
  assert (P1' : PI c v' (negb side) (sel (negb side) (upd (negb side) l1 pr))) by (rewrite sel_upd; exact P1).
  destruct (enqueue_ok c _ v' side (2 * k + 1) (negb s) V P1' ltac:(lia) C2) as (l2 & -> & P2 & M2 & K2 & Y2). cbn [obind].
  rewrite sel_upd in M2. eexists _, _. split; [reflexivity|].
  assert (Se : sel side (upd (negb side) l2 (upd (negb side) l1 pr)) = sel side pr) by (destruct side; reflexivity).
  split; [exact Se|]. split; [exact Hs|].
  set (l' := filter (fun e => negb (fst e / 2 =? k)) l). set (pr' := upd (negb side) l2 (upd (negb side) l1 pr)).
  assert (Sl : sel side (upd side l' pr') = l') by apply sel_upd.
  assert (So : sel (negb side) (upd side l' pr') = l2) by (rewrite sel_upd_other; unfold pr'; apply sel_upd).
  assert (Res : forall s2 i, sub v s2 i <> None -> sub v' s2 i <> None).
  { intros s2 i H. rewrite Sub. destruct (_ && _); [discriminate|exact H]. }
  split.
  - exact V.
  - intros s2 i x Hi E. rewrite Sub in E. destruct (Bool.eqb_spec s2 side) as [->|N]; cbn [andb] in E; [|apply (Fo s2 i x Hi E)].
    destruct (Nat.eqb_spec (i / 2) k) as [Ek|N]; [|apply (Fo side i x Hi E)]. injection E as <-.
    destruct (half i) as [(Ei & _ & ->)|(Ei & _ & ->)]; rewrite Ei, Ek; [rewrite Hc; destruct s; reflexivity|rewrite C2; destruct s; reflexivity].
  - intro s2. destruct (side_cases s2 side) as [->| ->]; [rewrite Sl|rewrite So; exact P2].
    pose proof (Pe side) as P. rewrite sel_upd in P. destruct P as (Q1 & Q2 & Q3). split; [|split].
    + rewrite Forall_forall in *. intros e He. unfold l' in He. rewrite filter_In, negb_true_iff, Nat.eqb_neq in He. destruct He as [He Ne].
      destruct (Q1 e He) as (E1 & E2 & E3). rewrite (Swv _ _ E1), Bool.eqb_reflx. destruct (Nat.eqb_spec (fst e / 2) k); [contradiction|]. auto.
    + unfold l'. clear - Q2. induction l as [|e l IH]; cbn in *; [constructor|]. apply NoDup_cons_iff in Q2. destruct Q2 as [A1 A2].
      destruct (negb (fst e / 2 =? k)); cbn; [|apply IH, A2]. constructor; [|apply IH, A2]. intro C. apply A1.
      unfold halves in *. apply in_map_iff in C. destruct C as (e' & E & C). apply filter_In in C. apply in_map_iff. exists e'. tauto.
    + unfold l'. clear - Q3. induction l as [|e l IH]; cbn in *; [exact I|]. destruct Q3 as [A1 A2].
      destruct (negb (fst e / 2 =? k)); cbn; [|apply IH, A2]. split; [|apply IH, A2]. rewrite Forall_forall in *. intros e' He'.
      apply filter_In in He'. apply A1, He'.
  - intros s2 i Hi H. destruct (sub v s2 i) as [x|] eqn:Eold.
    + assert (Old : sub v s2 i <> None) by congruence. specialize (Cl s2 i Hi Old). destruct Cl as [Cl|Cl]; [left; apply Res, Cl|].
      destruct (side_cases (negb s2) side) as [E|E]; rewrite E in *.
      * rewrite sel_upd in Cl. rewrite Sl. destruct (Nat.eq_dec (oth s2 i / 2) k) as [Ek|Nk].
        -- left. rewrite Sub, Bool.eqb_reflx, Ek, Nat.eqb_refl. discriminate.
        -- right. unfold halves, l' in *. apply in_map_iff in Cl. destruct Cl as (e & E1 & E2). apply in_map_iff. exists e. split; [exact E1|].
           apply filter_In. split; [exact E2|]. rewrite E1. apply negb_true_iff, Nat.eqb_neq, Nk.
      * rewrite So. rewrite sel_upd_other in Cl. right. apply M2, M1, Cl.
    + assert (s2 = side /\ i / 2 = k) as [-> Ek].
      { rewrite Sub in H. destruct (Bool.eqb_spec s2 side); cbn [andb] in H; [|congruence]. destruct (Nat.eqb_spec (i / 2) k); [auto|congruence]. }
      rewrite So. destruct (half i) as [(Ei & _)|(Ei & _)]; rewrite Ek in Ei; rewrite Ei; [|exact K2].
      destruct K1 as [K1|K1]; [left; exact K1|right; apply M2, K1].
Qed.

(** number of switches not yet set *)
Definition unset (v : values) : nat := length (filter (fun w => negb (v_contains v w)) (fst sw ++ snd sw)).
Lemma unset_sets v v' side k s : k < num side -> swv v side k = None -> sets v v' side k s -> unset v = S (unset v').
Proof using HD.
  intros Hk Hu Hs. unfold unset. assert (Hin := wireof_in side k Hk). revert Hin. pose proof HD as D. revert D.
  generalize (fst sw ++ snd sw). set (w := wireof side k) in *.
  assert (C1 : v_contains v w = false) by (apply swv_none_contains; assumption).
  assert (C2 : v_contains v' w = true) by (unfold v_contains, m_mem; rewrite Hs; fold w; rewrite Nat.eqb_refl; reflexivity).
  assert (C3 : forall x, x <> w -> v_contains v' x = v_contains v x).
  { intros x Hx. unfold v_contains, m_mem. rewrite Hs. fold w. destruct (Nat.eqb_spec x w); [contradiction|reflexivity]. }
  assert (G : forall l, ~ In w l -> filter (fun w => negb (v_contains v' w)) l = filter (fun w => negb (v_contains v w)) l).
  { induction l as [|x l IH]; intro N; [reflexivity|]. cbn. rewrite C3 by (intros ->; apply N; left; reflexivity).
    rewrite IH by (intro; apply N; right; assumption). reflexivity. }
  induction l as [|x l IH]; intros D Hin; [destruct Hin|]. apply NoDup_cons_iff in D. destruct D as [D1 D2]. cbn [filter].
  destruct (Nat.eq_dec x w) as [->|Nx].
  - rewrite C1, C2. cbn [negb length]. rewrite (G l D1). reflexivity.
  - destruct Hin as [|Hin]; [contradiction|]. rewrite (C3 x Nx). destruct (negb (v_contains v x)); cbn [length]; rewrite (IH D2 Hin); reflexivity.
Qed.

(** later values only add switch settings *)
Definition grows (v v' : values) : Prop := (forall j, ~ In j (fst sw ++ snd sw) -> m_get j v' = m_get j v) /\
  (forall j, m_get j v <> None -> m_get j v' = m_get j v) /\ (forall j x, m_get j v' = Some x -> m_get j v = None -> x = 0%Z \/ x = 1%Z).
Lemma grows_refl v : grows v v.
Proof using. split; [reflexivity|]. split; [reflexivity|]. intros j x E N. congruence. Qed.
Lemma grows_trans v1 v2 v3 : grows v1 v2 -> grows v2 v3 -> grows v1 v3.
Proof using.
  intros (A1 & A2 & A3) (B1 & B2 & B3). split; [|split].
  - intros j Hj. rewrite B1, A1 by exact Hj. reflexivity.
  - intros j Hj. rewrite B2, A2; [reflexivity|exact Hj|]. rewrite A2 by exact Hj. exact Hj.
  - intros j x E N. destruct (m_get j v2) as [y|] eqn:E2; [|exact (B3 j x E E2)].
    rewrite B2 in E by congruence. apply (A3 j x); congruence.
Qed.
Lemma sets_grows v v' side k s : k < num side -> swv v side k = None -> sets v v' side k s -> grows v v'.
Proof using.
  intros Hk Hu Hs. split; [|split].
  - intros j Hj. rewrite Hs. destruct (Nat.eqb_spec j (wireof side k)) as [->|]; [|reflexivity]. exfalso. apply Hj, wireof_in, Hk.
  - intros j Hj. rewrite Hs. destruct (Nat.eqb_spec j (wireof side k)) as [->|]; [|reflexivity].
    unfold swv in Hu. destruct (m_get (wireof side k) v); congruence.
  - intros j x E N. rewrite Hs in E. destruct (Nat.eqb_spec j (wireof side k)); [injection E as <-; destruct s; cbn; auto|congruence].
Qed.
Lemma grows_swv v v' side k : grows v v' -> swv v side k <> None -> swv v' side k <> None.
Proof using. intros (_ & G & _) H. unfold swv in *. rewrite G; [exact H|]. destruct (m_get _ v); congruence. Qed.

(** processing all the pending routes of one side *)
Lemma route_pending c side : forall l pr v, J c (upd side l pr) v ->
  exists pr' v', ofold (fun s e => route_switch sw bm s side (fst e / 2) (Bool.eqb (Nat.even (fst e)) (snd e))) l (pr, v) = Ok (pr', v') /\
    sel side pr' = sel side pr /\ grows v v' /\ unset v = unset v' + length l /\ J c (upd side [] pr') v'.
Proof using Hn Hf Hg HN0 HN1 HD Hord.
  induction l as [|e l IH]; intros pr v HJ.
  - exists pr, v. cbn. split; [reflexivity|]. split; [reflexivity|]. split; [apply grows_refl|]. split; [lia|exact HJ].
  - cbn [ofold]. pose proof (j_pend _ _ _ HJ side) as P. rewrite sel_upd in P. destruct P as (P1 & P2 & _).
    apply Forall_cons_iff in P1. destruct P1 as [(E1 & E2 & E3) _]. set (k := fst e / 2) in *.
    assert (Hc : col c side (2 * k) = Bool.eqb (Nat.even (fst e)) (snd e)).
    { pose proof (num_le side). destruct (half (fst e)) as [(Ei & -> & _)|(Ei & -> & _)]; fold k in Ei; rewrite <- E3.
      - rewrite <- Ei. destruct (col c side (fst e)); reflexivity.
      - destruct (j_valid _ _ _ HJ side (2 * k) ltac:(lia)) as [V1 _]. rewrite half_even, sib_even, <- Ei in V1.
        rewrite (V1 E1). destruct (col c side (2 * k)); reflexivity. }
    destruct (route_switch_ok c pr v side k _ (e :: l) HJ E1 E2 Hc) as (pr1 & v1 & -> & S1 & T1 & J1). cbn [obind].
    assert (Fl : filter (fun e0 => negb (fst e0 / 2 =? k)) (e :: l) = l).
    { cbn [filter]. fold k. rewrite Nat.eqb_refl. cbn [negb]. unfold halves in P2. cbn [map] in P2. apply NoDup_cons_iff in P2. destruct P2 as [N _].
      fold k in N. clear - N. induction l as [|x l IHl]; [reflexivity|]. cbn in *. destruct (Nat.eqb_spec (fst x / 2) k) as [E|E]; [tauto|].
      cbn. f_equal. apply IHl. tauto. }
    rewrite Fl in J1. destruct (IH pr1 v1 J1) as (pr' & v' & -> & S2 & G2 & U2 & J2). exists pr', v'. split; [reflexivity|].
    split; [congruence|]. split; [eapply grows_trans; [eapply sets_grows; eassumption|exact G2]|]. split; [|exact J2].
    rewrite (unset_sets v v1 side k _ E1 E2 T1), U2. cbn [length]. lia.
Qed.

(** with nothing pending, the switches not yet set can be recoloured *)
Lemma recolour c pr v side k : J c pr v -> sel side pr = [] -> sel (negb side) pr = [] -> k < num side -> swv v side k = None ->
  exists c', J c' pr v /\ col c' side (2 * k) = false.
Proof using Hn Hf Hg HN0 HN1.
  intros HJ E1 E2 Hk Hu. destruct (col c side (2 * k)) eqn:Ec; [|exists c; auto].
  assert (Epr : forall s, sel s pr = []) by (intro s; destruct (side_cases s side) as [->| ->]; assumption).
  destruct HJ as [V Fo Pe Cl]. pose proof (num_le side) as NL.
  assert (Closed : forall s i, i < n -> sub v s i <> None -> sub v (negb s) (oth s i) <> None).
  { intros s i Hi H. destruct (Cl s i Hi H) as [C|C]; [exact C|]. rewrite Epr in C. destruct C. }
  assert (Iff : forall s i, i < n -> (sub v s i = None <-> sub v (negb s) (oth s i) = None)).
  { intros s i Hi. pose proof (Closed s i Hi) as A1. pose proof (Closed (negb s) (oth s i) (oth_lt s i Hi)) as A2.
    rewrite oth_oth, negb_involutive in A2 by exact Hi. destruct (sub v s i), (sub v (negb s) (oth s i)); intuition congruence. }
  set (fl := fun i => match sub v false i with None => true | Some _ => false end).
  set (c' := fun i => xorb (c i) (fl i)).
  assert (Cc : forall s i, i < n -> col c' s i = xorb (col c s i) (match sub v s i with None => true | Some _ => false end)).
  { intros s i Hi. unfold col. destruct s; [|reflexivity]. unfold c'. f_equal. unfold fl.
    pose proof (Iff true i Hi) as A. cbn [negb oth] in A. destruct (sub v false (g i)), (sub v true i); intuition congruence. }
  exists c'. split.
  - split.
    + intros s i Hi. destruct (V s i Hi) as [V1 V2]. rewrite (Cc s i Hi). split; intro H.
      * rewrite (Cc s (sib i) (sib_lt_n s i H)), (V1 H), (sub_sib v s i H). destruct (sub v s i), (col c s i); reflexivity.
      * rewrite (V2 H). unfold sub. destruct (Nat.ltb_spec (i / 2) (num s)); [lia|]. rewrite xorb_false_r. reflexivity.
    + intros s i x Hi E. rewrite (Cc s i Hi), E, xorb_false_r. apply (Fo s i x Hi E).
    + intro s. rewrite Epr. split; [constructor|split; [constructor|exact I]].
    + exact Cl.
  - rewrite (Cc side (2 * k) ltac:(lia)), Ec. replace (sub v side (2 * k)) with (@None bool); [reflexivity|].
    symmetry. apply sub_none. rewrite half_even. auto.
Qed.

(** the scan *)
Lemma scan_spec v side : forall steps k, k <= num side -> num side - k <= steps ->
  let k' := scan steps v (sel side sw) k in k <= k' <= num side /\ (forall j, k <= j < k' -> swv v side j <> None) /\
    (k' < num side -> swv v side k' = None).
Proof using n Hn HN1 HN0.
  induction steps as [|m IH]; intros k Hk Hs; cbn [scan].
  - split; [lia|]. split; intros; lia.
  - destruct (nth_error (sel side sw) k) as [w|] eqn:E.
    + assert (L : k < num side) by (apply nth_error_Some; congruence).
      assert (w = wireof side k) by (unfold wireof; symmetry; apply nth_error_nth, E). subst w.
      destruct (v_contains v (wireof side k)) eqn:Ec.
      * destruct (IH (S k) ltac:(lia) ltac:(lia)) as (A1 & A2 & A3). split; [lia|]. split; [|exact A3].
        intros j Hj. destruct (Nat.eq_dec j k) as [->|]; [|apply A2; lia]. intro N. apply (swv_none_contains v side k L) in N. congruence.
      * split; [lia|]. split; [intros; lia|]. intros _. apply swv_none_contains; assumption.
    + apply nth_error_None in E. unfold num in *. split; [lia|]. split; intros; lia.
Qed.

Definition scanned (v : values) (si : nat * nat) : Prop := forall side, sel side si <= num side /\ forall k, k < sel side si -> swv v side k <> None.
Definition measure (v : values) (si : nat * nat) : nat := unset v + (num false - fst si) + (num true - snd si).

Lemma route_side_ok c pr v si side : J c pr v -> scanned v si -> (sel side pr = [] -> sel (negb side) pr = []) ->
  exists c' pr' v' si', route_side sw bm (pr, v, si) side = Ok (pr', v', si') /\ J c' pr' v' /\ scanned v' si' /\ grows v v' /\
    sel side pr' = [] /\ measure v' si' <= measure v si /\ (sel side si < num side -> measure v' si' < measure v si).
Proof using Hn Hf Hg HN0 HN1 HD Hord.
  intros HJ HS HE. unfold route_side. destruct (sel side pr) as [|e l] eqn:Epr.
  - specialize (HE eq_refl). destruct (HS side) as [S1 S2].
    destruct (scan_spec v side (length (sel side sw) - sel side si) (sel side si) S1 ltac:(unfold num; lia)) as (K1 & K2 & K3).
    set (k := scan _ _ _ _) in *. change (length (sel side sw)) with (num side).
    assert (Hset : forall j, j < k -> swv v side j <> None).
    { intros j Hj. destruct (Nat.lt_ge_cases j (sel side si)); [apply S2; assumption|apply K2; lia]. }
    destruct (Nat.ltb_spec k (num side)) as [L|L].
    + destruct (recolour c pr v side k HJ Epr HE L (K3 L)) as (c' & HJ' & Hc).
      rewrite <- (upd_sel side pr) in HJ'. rewrite Epr in HJ'.
      destruct (route_switch_ok c' pr v side k false [] HJ' L (K3 L) Hc) as (pr' & v' & -> & P1 & T1 & J1). cbn [obind].
      rewrite Epr in P1. cbn [filter] in J1. rewrite <- P1, upd_sel in J1.
      pose proof (sets_grows v v' side k false L (K3 L) T1) as G. pose proof (unset_sets v v' side k false L (K3 L) T1) as U.
      exists c', pr', v', (upd side (S k) si). split; [reflexivity|]. split; [exact J1|]. split; [|split; [exact G|split; [exact P1|]]].
      * intro s. destruct (side_cases s side) as [->| ->].
        -- rewrite sel_upd. split; [lia|]. intros j Hj. destruct (Nat.eq_dec j k) as [->|].
           ++ rewrite (swv_sets v v' side k false T1 L side k L), Bool.eqb_reflx, Nat.eqb_refl. discriminate.
           ++ eapply grows_swv; [exact G|]. apply Hset. lia.
        -- rewrite sel_upd_other. destruct (HS (negb side)) as [A1 A2]. split; [exact A1|]. intros j Hj. eapply grows_swv; [exact G|]. apply A2, Hj.
      * unfold measure. destruct side; cbn [upd sel fst snd] in *; lia.
    + exists c, pr, v, (upd side k si). split; [reflexivity|]. split; [exact HJ|]. split; [|split; [apply grows_refl|split; [exact Epr|]]].
      * intro s. destruct (side_cases s side) as [->| ->]; [rewrite sel_upd; split; [lia|exact Hset]|rewrite sel_upd_other; apply HS].
      * unfold measure. destruct side; cbn [upd sel fst snd] in *; lia.
  - assert (HJ' : J c (upd side (e :: l) pr) v) by (rewrite <- Epr, upd_sel; exact HJ).
    destruct (route_pending c side (e :: l) pr v HJ') as (pr' & v' & -> & P1 & G & U & J1). cbn [obind].
    exists c, (upd side [] pr'), v', si. split; [reflexivity|]. split; [exact J1|]. split; [|split; [exact G|split; [apply sel_upd|]]].
    + intro s. destruct (HS s) as [A1 A2]. split; [exact A1|]. intros j Hj. eapply grows_swv; [exact G|]. apply A2, Hj.
    + unfold measure. cbn [length] in U. lia.
Qed.

Lemma route_loop_ok : forall fuel c pr v si, J c pr v -> scanned v si -> (sel false pr = [] -> sel true pr = []) -> measure v si < fuel ->
  exists c' v', route_loop sw bm fuel (pr, v, si) = Ok v' /\ valid c' /\ follows c' v' /\ grows v v' /\
    (forall side k, k < num side -> swv v' side k <> None).
Proof using Hn Hf Hg HN0 HN1 HD Hord.
  induction fuel as [|fuel IH]; intros c pr v si HJ HS HE HM; [lia|]. cbn [route_loop].
  change (length (fst sw)) with (num false). change (length (snd sw)) with (num true).
  destruct ((fst si <? num false) || (snd si <? num true)) eqn:Cond.
  - destruct (route_side_ok c pr v si false HJ HS HE) as (c1 & pr1 & v1 & si1 & R1 & J1 & S1 & G1 & E1 & M1 & M1'). rewrite R1. cbn [obind].
    destruct (route_side_ok c1 pr1 v1 si1 true J1 S1 ltac:(intro; exact E1)) as (c2 & pr2 & v2 & si2 & R2 & J2 & S2 & G2 & E2 & M2 & M2'). rewrite R2. cbn [obind].
    assert (Snd : snd si1 = snd si).
    { revert R1. unfold route_side. cbn [sel]. destruct (fst pr) as [|e l].
      - match goal with |- (if ?x then _ else _) = _ -> _ => destruct x end; [|intro E; inversion E; subst; reflexivity].
        destruct (route_switch _ _ _ _ _ _) as [[p w]| |]; cbn; [|discriminate|discriminate]. intro E; inversion E; subst; reflexivity.
      - destruct (ofold _ _ _) as [[p w]| |]; cbn [obind]; [|discriminate|discriminate]. intro E; inversion E; subst; reflexivity. }
    destruct (IH c2 pr2 v2 si2 J2 S2 ltac:(intro; exact E2)) as (c' & v' & R & V & Fo & G & A).
    + apply orb_true_iff in Cond. rewrite !Nat.ltb_lt in Cond. cbn [sel] in *. rewrite Snd in M2'. destruct Cond; lia.
    + exists c', v'. split; [exact R|]. split; [exact V|]. split; [exact Fo|]. split; [|exact A]. eapply grows_trans; [exact G1|]. eapply grows_trans; eassumption.
  - apply orb_false_iff in Cond. rewrite !Nat.ltb_ge in Cond. exists c, v. split; [reflexivity|]. destruct HJ as [V Fo _ _].
    split; [exact V|]. split; [exact Fo|]. split; [apply grows_refl|]. intros side k Hk. apply HS. destruct side; cbn [sel]; lia.
Qed.

Lemma unset_le v : unset v <= length (fst sw) + length (snd sw).
Proof using n Hn HN1 HN0. unfold unset. rewrite <- app_length. generalize (fst sw ++ snd sw). induction l as [|x l IH]; cbn; [lia|]. destruct (negb _); cbn; lia. Qed.

(** The whole routing, from values in which no switch is set. *)
Definition start (v : values) : outcome (list (nat * bool) * list (nat * bool)) :=
  let! n1 := osub n 1 in
  if Nat.even n then
    let! n2 := osub n 2 in
    let! pr := enqueue_other_side sw bm ([], []) v true n2 false in
    enqueue_other_side sw bm pr v true n1 true
  else
    let! pr := enqueue_other_side sw bm ([], []) v false n1 true in
    enqueue_other_side sw bm pr v true n1 true.

Lemma route_ok v : (forall w, In w (fst sw ++ snd sw) -> m_get w v = None) ->
  exists v', (let! pr := start v in route_loop sw bm (S (2 * (length (fst sw) + length (snd sw)))) (pr, v, (0, 0))) = Ok v' /\ grows v v' /\
    (forall side k, k < num side -> swv v' side k <> None) /\
    (forall i, i < n -> exists s, sub v' false i = Some s /\ sub v' true (f i) = Some s).
Proof using Hn Hf Hg HN0 HN1 HD Hord.
  intro Hu. destruct colouring_exists as (c & V).
  assert (Un : forall side k, k < num side -> swv v side k = None).
  { intros side k Hk. unfold swv. rewrite (Hu _ (wireof_in side k Hk)). reflexivity. }
  assert (Fx : forall side i, i < n -> sub v side i <> None -> num side <= i / 2).
  { intros side i Hi H. destruct (Nat.le_gt_cases (num side) (i / 2)); [assumption|]. exfalso. apply H. apply sub_none. auto. }
  assert (P0 : forall side, PI c v side []) by (intro; split; [constructor|split; [constructor|exact I]]).
  assert (Fo : follows c v).
  { intros side i s Hi E. pose proof (Fx side i Hi ltac:(congruence)) as L. destruct (V side i Hi) as [_ V2]. rewrite (V2 L).
    unfold sub in E. destruct (Nat.ltb_spec (i / 2) (num side)); [lia|]. congruence. }
  assert (St : exists pr, start v = Ok pr /\ J c pr v /\ (sel false pr = [] -> sel true pr = [])).
  { unfold start, osub. destruct (Nat.leb_spec 1 n); [|lia]. cbn [obind]. pose proof (num_le false) as L0. pose proof (num_le true) as L1.
    destruct (half n) as [(En & Ee & _)|(En & Ee & _)]; rewrite Ee.
    - destruct (Nat.leb_spec 2 n); [|lia]. cbn [obind].
      assert (N1 : num true = n / 2 - 1) by (pose proof HN1 as X; rewrite Ee in X; exact X). assert (N0 : num false = n / 2) by exact HN0.
      assert (H2 : (n - 2) / 2 = n / 2 - 1) by (replace (n - 2) with (2 * (n / 2 - 1)) by lia; apply half_even).
      assert (H1 : (n - 1) / 2 = n / 2 - 1) by (replace (n - 1) with (2 * (n / 2 - 1) + 1) by lia; apply half_of; lia).
      assert (C2 : col c true (n - 2) = false).
      { destruct (V true (n - 2) ltac:(lia)) as [_ V2]. rewrite V2 by lia. apply Nat.eqb_neq. lia. }
      assert (C1 : col c true (n - 1) = true).
      { destruct (V true (n - 1) ltac:(lia)) as [_ V2]. rewrite V2 by lia. apply Nat.eqb_refl. }
      destruct (enqueue_ok c ([], []) v true (n - 2) false V (P0 false) ltac:(lia) C2) as (l1 & -> & P1 & M1 & K1 & Y1). cbn [obind negb upd fst snd] in *.
      destruct (enqueue_ok c (l1, []) v true (n - 1) true V P1 ltac:(lia) C1) as (l2 & -> & P2 & M2 & K2 & Y2). cbn [negb upd sel fst snd] in *.
      exists (l2, []). split; [reflexivity|]. split; [|auto]. split; [exact V|exact Fo| |].
      + intros []; cbn [sel fst snd]; [apply P0|exact P2].
      + intros side i Hi H'. apply (Fx side i Hi) in H'. destruct side; cbn [negb sel fst snd oth].
        * destruct (half i) as [(Ei & _)|(Ei & _)].
          -- replace i with (n - 2) by lia. destruct K1 as [K1|K1]; [left; exact K1|right; apply M2, K1].
          -- replace i with (n - 1) by lia. exact K2.
        * exfalso. assert (i < 2 * (n / 2)) as X by lia. apply half_lt in X. lia.
    - assert (N1 : num true = n / 2) by (pose proof HN1 as X; rewrite Ee in X; exact X). assert (N0 : num false = n / 2) by exact HN0.
      assert (H1 : (n - 1) / 2 = n / 2) by (replace (n - 1) with (2 * (n / 2)) by lia; apply half_even).
      assert (C1 : forall s, col c s (n - 1) = true).
      { intro s. destruct (V s (n - 1) ltac:(lia)) as [_ V2]. rewrite V2 by (destruct s; lia). apply Nat.eqb_refl. }
      destruct (enqueue_ok c ([], []) v false (n - 1) true V (P0 true) ltac:(lia) (C1 false)) as (l1 & -> & P1 & M1 & K1 & Y1). cbn [obind negb upd fst snd] in *.
      destruct (enqueue_ok c ([], l1) v true (n - 1) true V (P0 false) ltac:(lia) (C1 true)) as (l2 & -> & P2 & M2 & K2 & Y2). cbn [negb upd sel fst snd oth] in *.
      exists (l2, l1). split; [reflexivity|]. split.
      + split; [exact V|exact Fo| |].
        * intros []; cbn [sel fst snd]; assumption.
        * intros side i Hi H'. apply (Fx side i Hi) in H'.
          assert (i = n - 1) by (destruct (half i) as [(Ei & _)|(Ei & _)]; destruct side; lia). subst i.
          destruct side; cbn [negb sel fst snd oth]; assumption.
      + cbn [sel fst snd]. intros ->. destruct K2 as [K2|[]]. apply (Fx false (g (n - 1))) in K2; [|apply Hg; lia].
        assert (Eg : g (n - 1) = n - 1).
        { destruct (Hg (n - 1) ltac:(lia)) as (A & _). destruct (half (g (n - 1))) as [(Ei & _)|(Ei & _)]; lia. }
        assert (Ef : f (n - 1) = n - 1) by (rewrite <- Eg at 1; apply Hg; lia).
        apply Y1. rewrite Ef. intro E. apply sub_none in E. lia. }
  destruct St as (pr & -> & HJ & HE). cbn [obind].
  destruct (route_loop_ok (S (2 * (length (fst sw) + length (snd sw)))) c pr v (0, 0) HJ) as (c' & v' & R & V' & Fo' & G & A).
  - intro side. split; [destruct side; cbn; lia|]. intros k Hk. destruct side; cbn in Hk; lia.
  - exact HE.
  - unfold measure, num. cbn [fst snd sel]. pose proof (unset_le v). lia.
  - exists v'. split; [exact R|]. split; [exact G|]. split; [exact A|]. intros i Hi.
    assert (Tot : forall side j, exists s, sub v' side j = Some s).
    { intros side j. unfold sub. destruct (Nat.ltb_spec (j / 2) (num side)) as [L|L]; [|eauto].
      specialize (A side (j / 2) L). destruct (swv v' side (j / 2)); [cbn; eauto|congruence]. }
    destruct (Tot false i) as (s & E1). destruct (Tot true (f i)) as (s' & E2). exists s. split; [exact E1|]. rewrite E2. f_equal.
    apply (Fo' false i s Hi) in E1. apply (Fo' true (f i) s' ltac:(apply Hf, Hi)) in E2. rewrite <- E1, <- E2. exact (col_oth c' false i Hi).
Qed.
End Route.
