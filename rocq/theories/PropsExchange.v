(** C105: independent calls can be made in either order. *)
From Coq Require Import ZArith List Bool Arith Lia Sorted Permutation.
From Verif Require Import Base FieldM FieldP ExprM BuilderM GadgetsM CryptoM WaksmanM CurveM ProgramM Spec SpecCrypto SpecCurve ExprP DetP FlowP SpecRename RenameP
  RenameCallsP Demo PropLib PropsRename.
From Verif Require Import LibraryM.
Import ListNotations.
Open Scope Z_scope.

(** Called with expressions on wires that have been handed out, the gadget constrains and returns only such wires. *)
Definition tidy {F : Field} (m : list expr -> B (list expr)) : Prop := forall es b r b', (0 < next b)%nat -> Forall (below (next b)) es -> m es b = Ok (r, b') ->
  (next b <= next b')%nat /\ Forall (below (next b')) r /\
  exists cs, constraints b' = constraints b ++ cs /\ Forall (fun c => below (next b') (c_a c) /\ below (next b') (c_b c) /\ below (next b') (c_c c)) cs.

(** Exchange of the [n1] wires from [N] with the [n2] wires after them. *)
Definition exchange (N n1 n2 k : nat) : nat :=
  if (k <? N)%nat then k else if (k <? N + n1)%nat then (k + n2)%nat else if (k <? N + n1 + n2)%nat then (k - n1)%nat else k.

Lemma exchange_inverse N n1 n2 k : exchange N n2 n1 (exchange N n1 n2 k) = k.
Proof.
  unfold exchange. destruct (Nat.ltb_spec k N); [destruct (Nat.ltb_spec k N); lia|].
  destruct (Nat.ltb_spec k (N + n1)).
  - repeat match goal with |- context [(?a <? ?b)%nat] => destruct (Nat.ltb_spec a b) end; lia.
  - destruct (Nat.ltb_spec k (N + n1 + n2)); repeat match goal with |- context [(?a <? ?b)%nat] => destruct (Nat.ltb_spec a b) end; lia.
Qed.

(** The wires handed out so far keep their place, the fresh ones are moved by [d]. *)
Definition moved (N d k k' : nat) : Prop := (k < N /\ k' = k)%nat \/ (exists i, k = N + i /\ k' = N + d + i)%nat.
Definition moved_back (N d k k' : nat) : Prop := moved N d k' k.
Definition exchanged (N n1 n2 k k' : nat) : Prop := k' = exchange N n1 n2 k.

Lemma moved_one_to_one N d : (0 < N)%nat -> one_to_one (moved N d).
Proof. intro H. split; [left; unfold ONE; lia|]. intros a a' b b' [A|(i & A)] [B|(j & B)]; lia. Qed.
Lemma moved_back_one_to_one N d : (0 < N)%nat -> one_to_one (moved_back N d).
Proof. intro H. split; [left; unfold ONE; lia|]. intros a a' b b' [A|(i & A)] [B|(j & B)]; lia. Qed.
Lemma exchanged_one_to_one N n1 n2 : (0 < N)%nat -> one_to_one (exchanged N n1 n2).
Proof.
  intro H. unfold exchanged. split; [unfold exchange, ONE; destruct (Nat.ltb_spec 0 N); lia|]. intros a a' b b' -> ->. split; [congruence|]. intro E.
  apply (f_equal (exchange N n2 n1)) in E. rewrite !exchange_inverse in E. exact E.
Qed.

Section Exchange.
Context {F : Field}.
Definition sorted (e : expr) : Prop := StronglySorted wire_lt (map fst e).

Lemma below_get n e k : below n e -> m_get k e <> None -> (k < n)%nat.
Proof. intros H G. destruct (le_lt_dec n k) as [L|L]; [|exact L]. exfalso. apply G, m_get_None. intro I. apply H in I. lia. Qed.
Lemma below_none n e k : below n e -> (n <= k)%nat -> m_get k e = None.
Proof. intros H L. destruct (m_get k e) eqn:E; [|reflexivity]. assert (k < n)%nat by (apply (below_get n e k H); congruence). lia. Qed.

(** an expression on old wires corresponds to itself *)
Lemma same_old (W : nat -> nat -> Prop) N e : (forall k, (k < N)%nat -> W k k) -> (forall k k', W k k' -> (k < N)%nat \/ (k' < N)%nat -> k = k') -> below N e -> sorted e -> same_expr W e e.
Proof.
  intros H1 H2 Hb Hs. split; [exact Hs|]. split; [exact Hs|]. split; [|split].
  - intros k k' Hk. destruct (le_lt_dec N k) as [L|L]; [destruct (le_lt_dec N k') as [L'|L']|].
    + rewrite !(below_none N e) by assumption. reflexivity.
    + rewrite (H2 k k' Hk); auto.
    + rewrite (H2 k k' Hk); auto.
  - intros k G. exists k. apply H1. exact (below_get N e k Hb G).
  - intros k G. exists k. apply H1. exact (below_get N e k Hb G).
Qed.

(** from the correspondence of one call to that of both *)
Lemma same_first N n1 n2 x x' : below (N + n1) x -> below (N + n2 + n1) x' -> same_expr (moved N n2) x x' -> same_expr (exchanged N n1 n2) x x'.
Proof.
  intros Hb Hb' (S1 & S2 & G & D & D'). split; [exact S1|]. split; [exact S2|]. split; [|split].
  - intros k k' ->. unfold exchange. destruct (Nat.ltb_spec k N); [apply G; left; lia|].
    destruct (Nat.ltb_spec k (N + n1)).
    + apply G. right. exists (k - N)%nat. lia.
    + rewrite (below_none _ x k Hb) by lia. destruct (Nat.ltb_spec k (N + n1 + n2)); [|rewrite (below_none _ x' k Hb') by lia; reflexivity].
      destruct (m_get (k - n1) x') eqn:E; [|reflexivity]. destruct (D' (k - n1)%nat) as [j [J|(i & J)]]; [congruence|lia|lia].
  - intros k _. eexists. reflexivity.
  - intros k _. exists (exchange N n2 n1 k). unfold exchanged. rewrite exchange_inverse. reflexivity.
Qed.
Lemma same_second N n1 n2 x x' : below (N + n1 + n2) x -> below (N + n2) x' -> same_expr (moved_back N n1) x x' -> same_expr (exchanged N n1 n2) x x'.
Proof.
  intros Hb Hb' (S1 & S2 & G & D & D'). split; [exact S1|]. split; [exact S2|]. split; [|split].
  - intros k k' ->. unfold exchange. destruct (Nat.ltb_spec k N); [apply G; left; lia|].
    destruct (Nat.ltb_spec k (N + n1)).
    + rewrite (below_none _ x' (k + n2) Hb') by lia. destruct (m_get k x) eqn:E; [|reflexivity]. destruct (D k) as [j [J|(i & J)]]; [congruence|lia|lia].
    + destruct (Nat.ltb_spec k (N + n1 + n2)).
      * apply G. right. exists (k - n1 - N)%nat. lia.
      * rewrite (below_none _ x k Hb), (below_none _ x' k Hb') by lia. reflexivity.
  - intros k _. eexists. reflexivity.
  - intros k _. exists (exchange N n2 n1 k). unfold exchanged. rewrite exchange_inverse. reflexivity.
Qed.

Lemma F2_impl {A A'} (P Q : A -> A' -> Prop) l l' (R : A -> Prop) (R' : A' -> Prop) : (forall x x', R x -> R' x' -> P x x' -> Q x x') ->
  Forall R l -> Forall R' l' -> Forall2 P l l' -> Forall2 Q l l'.
Proof. intros H HR HR' HP. induction HP; inversion HR; inversion HR'; subst; constructor; auto. Qed.
Lemma below_mono n n' e : (n <= n')%nat -> below n e -> below n' e.
Proof. intros L H k Hk. specialize (H k Hk). cbv beta in *. lia. Qed.

Lemma exchange_calls (m1 m2 : list expr -> B (list expr)) : placeable m1 -> placeable m2 -> tidy m1 -> tidy m2 ->
  forall b es1 es2, wf_builder b -> Forall (fun e => below (next b) e /\ sorted e) es1 -> Forall (fun e => below (next b) e /\ sorted e) es2 ->
  forall r1 b1 r2 b2, m1 es1 b = Ok (r1, b1) -> m2 es2 b1 = Ok (r2, b2) ->
  exists s2 b1' s1 b2' n1 n2, m2 es2 b = Ok (s2, b1') /\ m1 es1 b1' = Ok (s1, b2') /\
    next b2 = (next b + n1 + n2)%nat /\ next b2' = (next b + n2 + n1)%nat /\ length (constraints b2) = length (constraints b2') /\
    Forall2 (same_expr (exchanged (next b) n1 n2)) r1 s1 /\ Forall2 (same_expr (exchanged (next b) n1 n2)) r2 s2 /\
    exists c1 c2 c1' c2', constraints b2 = constraints b ++ c1 ++ c2 /\ constraints b2' = constraints b ++ c2' ++ c1' /\
      Forall2 (same_constraint (exchanged (next b) n1 n2)) c1 c1' /\ Forall2 (same_constraint (exchanged (next b) n1 n2)) c2 c2'.
Proof.
  intros P1 P2 T1 T2 b es1 es2 [N0 Wb] H1 H2 r1 b1 r2 b2 E1 E2. set (N := next b) in *.
  assert (B1 : Forall (below N) es1) by (eapply Forall_impl; [|exact H1]; cbv beta; tauto).
  assert (B2 : Forall (below N) es2) by (eapply Forall_impl; [|exact H2]; cbv beta; tauto).
  (* the first call does not depend on its place: how many wires it takes *)
  assert (S0 : forall (W : nat -> nat -> Prop) es, (forall k, (k < N)%nat -> W k k) -> (forall k k', W k k' -> (k < N)%nat \/ (k' < N)%nat -> k = k') ->
    Forall (fun e => below N e /\ sorted e) es -> Forall2 (same_expr W) es es).
  { intros W es Ha Hb H. induction H as [|e es [He1 He2] H IH]; constructor; [apply (same_old W N); assumption|exact IH]. }
  destruct (T1 es1 b r1 b1 N0 B1 E1) as (_ & R1 & c1 & C1 & D1).
  assert (Q1 : exists n1, next b1 = (N + n1)%nat).
  { specialize (P1 (moved N 0) (moved_one_to_one N 0 N0) es1 es1 (S0 (moved N 0) es1 ltac:(intros; left; lia) ltac:(intros k k' [K|(i & K)]; lia) H1) b b).
    rewrite E1 in P1. cbn in P1. destruct P1 as (_ & n & cs & cs' & gs & gs' & E & _); [intro i; right; exists i; lia|]. exists n. rewrite E. reflexivity. }
  destruct Q1 as [n1 N1].
  assert (B2' : Forall (below (next b1)) es2) by (eapply Forall_impl; [|exact B2]; intros e; apply below_mono; lia).
  destruct (T2 es2 b1 r2 b2 ltac:(lia) B2' E2) as (_ & R2 & c2 & C2 & D2).
  (* the second call, made first *)
  pose proof (P2 (moved_back N n1) (moved_back_one_to_one N n1 N0) es2 es2 (S0 (moved_back N n1) es2 ltac:(intros; left; lia) ltac:(intros k k' [K|(i & K)]; lia) H2) b1 b) as X2.
  rewrite E2 in X2. destruct (m2 es2 b) as [[s2 b1']| |] eqn:E2'; cbn in X2; [|exfalso; apply X2; intro i; right; exists i; lia..].
  destruct X2 as (V2 & n2 & k2 & k2' & g2 & g2' & F2 & F2' & K2 & _); [intro i; right; exists i; lia|].
  assert (c2 = k2) by (rewrite F2 in C2; cbn in C2; apply app_inv_head in C2; auto). subst k2.
  assert (N2 : next b2 = (N + n1 + n2)%nat) by (rewrite F2; cbn; lia). assert (N2' : next b1' = (N + n2)%nat) by (rewrite F2'; reflexivity).
  destruct (T2 es2 b s2 b1' N0 B2 E2') as (_ & R2' & c2' & C2' & D2').
  assert (c2' = k2') by (rewrite F2' in C2'; cbn in C2'; apply app_inv_head in C2'; auto). subst k2'.
  (* the first call, made second *)
  pose proof (P1 (moved N n2) (moved_one_to_one N n2 N0) es1 es1 (S0 (moved N n2) es1 ltac:(intros; left; lia) ltac:(intros k k' [K|(i & K)]; lia) H1) b b1') as X1.
  assert (S1 : same_fresh (moved N n2) b b1') by (intro i; right; exists i; lia). specialize (X1 S1).
  rewrite E1 in X1. destruct (m1 es1 b1') as [[s1 b2']| |] eqn:E1'; cbn in X1; [|contradiction..].
  destruct X1 as (V1 & m & k1 & k1' & g1 & g1' & F1 & F1' & K1 & _).
  assert (c1 = k1) by (rewrite F1 in C1; cbn in C1; apply app_inv_head in C1; auto). subst k1.
  assert (m = n1) by (rewrite F1 in N1; cbn in N1; fold N in N1; lia). subst m.
  assert (N1' : next b2' = (N + n2 + n1)%nat) by (rewrite F1'; cbn; lia).
  assert (B1' : Forall (below (next b1')) es1) by (eapply Forall_impl; [|exact B1]; intros e; apply below_mono; lia).
  destruct (T1 es1 b1' s1 b2' ltac:(lia) B1' E1') as (_ & R1' & c1' & C1' & D1').
  assert (c1' = k1') by (rewrite F1' in C1'; cbn in C1'; apply app_inv_head in C1'; auto). subst k1'.
  rewrite N1 in *. rewrite N2 in *. rewrite N2' in *. rewrite N1' in *.
  exists s2, b1', s1, b2', n1, n2. split; [reflexivity|]. split; [exact E1'|]. split; [assumption || reflexivity|]. split; [assumption || reflexivity|].
  assert (X1 : Forall2 (same_constraint (exchanged N n1 n2)) c1 c1').
  { eapply F2_impl; [|exact D1|exact D1'|exact K1]. cbv beta. intros c c' (A1 & A2 & A3) (A1' & A2' & A3') (Y1 & Y2 & Y3).
    split; [|split]; apply same_first; assumption. }
  assert (X2 : Forall2 (same_constraint (exchanged N n1 n2)) c2 c2').
  { eapply F2_impl; [|exact D2|exact D2'|exact K2]. cbv beta. intros c c' (A1 & A2 & A3) (A1' & A2' & A3') (Y1 & Y2 & Y3).
    split; [|split]; apply same_second; assumption. }
  split; [|split; [|split]].
  - rewrite C2, C1, C1', C2', !app_length, (Forall2_len _ _ _ X1), (Forall2_len _ _ _ X2). lia.
  - eapply F2_impl; [|exact R1|exact R1'|exact V1]. cbv beta. intros. apply same_first; assumption.
  - eapply F2_impl; [|exact R2|exact R2'|exact V2]. cbv beta. intros. apply same_second; assumption.
  - exists c1, c2, c1', c2'. split; [rewrite C2, C1, app_assoc; reflexivity|]. split; [rewrite C1', C2', app_assoc; reflexivity|]. auto.
Qed.
End Exchange.

Theorem C105_exchange : forall (F : Field), 2 <= order -> forall m1 m2, placeable m1 -> placeable m2 -> tidy m1 -> tidy m2 ->
  forall b es1 es2, wf_builder b -> Forall (fun e => below (next b) e /\ sorted e) es1 -> Forall (fun e => below (next b) e /\ sorted e) es2 ->
  let first_second := r1 <- m1 es1 ;; r2 <- m2 es2 ;; bret (r1, r2) in
  let second_first := r2 <- m2 es2 ;; r1 <- m1 es1 ;; bret (r1, r2) in
  ((exists x, first_second b = Ok x) <-> (exists x, second_first b = Ok x)) /\
  forall r1 r2 c s1 s2 d, first_second b = Ok ((r1, r2), c) -> second_first b = Ok ((s1, s2), d) ->
    next c = next d /\ length (constraints c) = length (constraints d) /\
    exists there back, (forall k, back (there k) = k /\ there (back k) = k) /\ (forall k, (k < next b)%nat -> there k = k) /\ (forall k, (k < next c <-> there k < next c)%nat) /\
    forall w, (sat w c <-> sat (fun k => w (back k)) d) /\ map (ev w) r1 = map (ev (fun k => w (back k))) s1 /\ map (ev w) r2 = map (ev (fun k => w (back k))) s2.
Proof.
  intros F Hord m1 m2 P1 P2 T1 T2 b es1 es2 Hb H1 H2 A B.
  assert (OkA : forall r1 r2 c, A b = Ok ((r1, r2), c) <-> exists b1, m1 es1 b = Ok (r1, b1) /\ m2 es2 b1 = Ok (r2, c)).
  { intros r1 r2 c. unfold A, bbind, bret. split.
    - destruct (m1 es1 b) as [[x b1]| |] eqn:E1; try discriminate. destruct (m2 es2 b1) as [[y b2]| |] eqn:E2; try discriminate. intro E. injection E as <- <- <-. eauto.
    - intros (b1 & -> & ->). reflexivity. }
  assert (OkB : forall r1 r2 c, B b = Ok ((r1, r2), c) <-> exists b1, m2 es2 b = Ok (r2, b1) /\ m1 es1 b1 = Ok (r1, c)).
  { intros r1 r2 c. unfold B, bbind, bret. split.
    - destruct (m2 es2 b) as [[x b1]| |] eqn:E1; try discriminate. destruct (m1 es1 b1) as [[y b2]| |] eqn:E2; try discriminate. intro E. injection E as <- <- <-. eauto.
    - intros (b1 & -> & ->). reflexivity. }
  split.
  - split.
    + intros [[[r1 r2] c] E]. apply OkA in E. destruct E as (b1 & E1 & E2).
      destruct (exchange_calls m1 m2 P1 P2 T1 T2 b es1 es2 Hb H1 H2 r1 b1 r2 c E1 E2) as (s2 & b1' & s1 & b2' & n1 & n2 & G1 & G2 & _).
      exists ((s1, s2), b2'). apply OkB. eauto.
    + intros [[[r1 r2] c] E]. apply OkB in E. destruct E as (b1 & E1 & E2).
      destruct (exchange_calls m2 m1 P2 P1 T2 T1 b es2 es1 Hb H2 H1 r2 b1 r1 c E1 E2) as (s2 & b1' & s1 & b2' & n1 & n2 & G1 & G2 & _).
      exists ((s2, s1), b2'). apply OkA. eauto.
  - intros r1 r2 c s1 s2 d Ea Eb. apply OkA in Ea. destruct Ea as (b1 & E1 & E2). apply OkB in Eb. destruct Eb as (d1 & D1 & D2).
    destruct (exchange_calls m1 m2 P1 P2 T1 T2 b es1 es2 Hb H1 H2 r1 b1 r2 c E1 E2) as (s2' & b1' & s1' & b2' & n1 & n2 & G1 & G2 & N & N' & L & V1 & V2 & c1 & c2 & c1' & c2' & C & C' & K1 & K2).
    rewrite D1 in G1. injection G1 as <- <-. rewrite D2 in G2. injection G2 as <- <-.
    split; [lia|]. split; [exact L|]. exists (exchange (next b) n1 n2), (exchange (next b) n2 n1).
    split; [intro k; rewrite !exchange_inverse; auto|]. split; [intros k Hk; unfold exchange; destruct (Nat.ltb_spec k (next b)); lia|].
    split; [intro k; unfold exchange; destruct (Nat.ltb_spec k (next b)); [lia|]; destruct (Nat.ltb_spec k (next b + n1)); [lia|]; destruct (Nat.ltb_spec k (next b + n1 + n2)); lia|].
    intro w. set (w' := fun k => w (exchange (next b) n2 n1 k)). pose proof (exchanged_one_to_one (next b) n1 n2 (proj1 Hb)) as HW.
    assert (R : forall k k', exchanged (next b) n1 n2 k k' -> w k = w' k') by (intros k k' ->; unfold w'; rewrite exchange_inverse; reflexivity).
    split.
    + unfold sat. rewrite C, C', !Forall_app, (C103_satisfied F _ HW w w' R _ _ K1), (C103_satisfied F _ HW w w' R _ _ K2).
      assert (O : Forall (sat1 w) (constraints b) <-> Forall (sat1 w') (constraints b)); [|tauto].
      destruct Hb as [_ Hb]. rewrite !Forall_forall. rewrite Forall_forall in Hb.
      assert (Q : forall x e, over (fun k => (k < next b)%nat) e -> In x (constraints b) -> ev w' e = ev w e).
      { intros x e He _. apply ev_ext. intros k Hk. unfold w', exchange. specialize (He k Hk). cbv beta in He. destruct (Nat.ltb_spec k (next b)); [reflexivity|lia]. }
      split; intros S x Hx; destruct (Hb x Hx) as (A1 & A2 & A3); specialize (S x Hx); unfold sat1 in *;
        [rewrite (Q x _ A1 Hx), (Q x _ A2 Hx), (Q x _ A3 Hx)|rewrite <- (Q x _ A1 Hx), <- (Q x _ A2 Hx), <- (Q x _ A3 Hx)]; exact S.
    + assert (M : forall l l', Forall2 (same_expr (exchanged (next b) n1 n2)) l l' -> map (ev w) l = map (ev w') l').
      { intros l l' H. induction H as [|x x' l l' Hx H IH]; [reflexivity|]. cbn. rewrite IH, (ev_same _ HW F w w' x x' R Hx). reflexivity. }
      split; apply M; assumption.
Qed.
Print Assumptions C105_exchange.

(** ** All gadgets *)
Lemma tidy_flow (F : Field) m : belowl m -> tidy m.
Proof.
  intros H es b r b' Hn He E. destruct (H (next b) es He b r b' Hn (le_n _) E) as (L & Ls & U' & cs & _ & _ & C & Hc & (_ & Hr) & _).
  split; [exact L|]. split; [exact Hr|]. exists cs. split; [exact C|exact Hc].
Qed.

Section Tidy.
Context {F : Field}.
Lemma fl_out1 n m : fl n m below -> fl n (out1 m) belows.
Proof. intro H. eapply fl_bind; [exact H|]. cbv beta. intros n' a P L Ha. apply fl_ret. intros. constructor; [eapply below_le; eauto|constructor]. Qed.
Lemma fl_out0 {A} n (m : B A) Q : fl n m Q -> fl n (out0 m) belows.
Proof. intro H. eapply fl_bind; [exact H|]. cbv beta. intros n' a P L Ha. apply fl_ret. intros. constructor. Qed.
Lemma fl_call1 n es i k : belows n es -> (forall n' x, (1 <= n')%nat -> (n <= n')%nat -> below n' x -> fl n' (k x) belows) -> fl n (call1 es i k) belows.
Proof. intros H K. eapply fl_bind; [apply fl_index, H|]. cbv beta. intros. apply K; assumption. Qed.
Lemma fl_call2 n es i j k : belows n es -> (forall n' x y, (1 <= n')%nat -> (n <= n')%nat -> below n' x -> below n' y -> fl n' (k x y) belows) -> fl n (call2 es i j k) belows.
Proof.
  intros H K. eapply fl_bind; [apply fl_index, H|]. cbv beta. intros n1 x P1 L1 Hx. eapply fl_bind; [apply fl_index, (belows_le n n1 _ H L1)|]. cbv beta. intros n2 y P2 L2 Hy.
  apply K; [assumption|lia|eapply below_le; eauto|assumption].
Qed.
Lemma fl_ret1 n x : below n x -> fl n (bret [x]) belows.
Proof. intro H. apply fl_ret. intros. constructor; [eapply below_le; eauto|constructor]. Qed.
Lemma fl_panic {A} n Q : fl n (blift (@Panic A)) Q.
Proof. apply fl_lift. discriminate. Qed.
Lemma belows_cut n ns : forall l, belows n l -> Forall (belows n) (cut ns l).
Proof. induction ns as [|k ns IH]; intros l H; simpl; constructor; [apply belows_firstn, H|apply IH, belows_skipn, H]. Qed.
Lemma belows_pick n l is r : belows n l -> pick l is = Some r -> belows n r.
Proof.
  intro H. revert r. induction is as [|i is IH]; intros r E; simpl in E; [injection E as <-; constructor|].
  destruct (nth_error l i) as [x|] eqn:N; [|discriminate]. destruct (pick l is) as [xs|]; [|discriminate]. injection E as <-. constructor; [|apply IH; reflexivity].
  apply nth_error_In in N. unfold belows in H. rewrite Forall_forall in H. apply H, N.
Qed.
End Tidy.

Ltac argb H := repeat match type of H with
  | belows _ ?l => is_var l; destruct H as [|? ? ? H]; try apply fl_panic
  | Forall _ ?l => is_var l; destruct H as [|? ? ? H]; try apply fl_panic
  end.

Theorem C105_operations : forall (F : Field), 2 <= order -> (forall o, tidy (fun es => cop es o)) /\ forall p, tidy (compile p).
Proof.
  intros F Hord. assert (O : forall o, belowl (fun es => cop es o)).
  { intros o n es H. apply fl_pos. intro Pn. destruct o; simpl;
      try (apply fl_call2; [exact H|intros n' x y P L Hx Hy]); try (apply fl_call1; [exact H|intros n' x P L Hx]); try (apply fl_out1); try (eapply fl_out0); try (apply fl_ret1).
    all: eauto using below_add, below_sub, below_neg, below_scale, fl_product, fl_quotient, fl_inverse, fl_exponentiation, fl_nonzero, fl_zero, fl_equal, fl_not, fl_and, fl_or, fl_xor, fl_selection,
      fl_assert_zero, fl_assert_equal, fl_assert_nonzero, fl_assert_nonequal, fl_assert_boolean, fl_assert_true, fl_assert_false, fl_lt, fl_gt.
    - apply fl_lift. intros n' a L E. unfold e_from_uint in E. destruct (el_from _); cbn [obind] in E; try discriminate. injection E as <-. apply below_const. lia.
    - apply (fl_call1 n' es j (fun z => out1 (selection x y z))); [eapply belows_le; eauto|]. intros n2 z P2 L2 Hz. apply fl_out1, fl_selection; [eapply below_le; eauto|eapply below_le; eauto|assumption].
    - eapply fl_bind; [apply fl_split, Hx|]. cbv beta. intros. apply fl_out1, fl_index. assumption. }
  split; [intro o; apply tidy_flow, O|]. intro p. apply tidy_flow. induction p as [|o p IH]; intros n es H; simpl; [apply fl_ret; intros; eapply belows_le; eauto|].
  eapply fl_bind; [apply (O o), H|]. cbv beta. intros. apply IH, belows_app; [eapply belows_le; eauto|assumption].
Qed.
Print Assumptions C105_operations.

Theorem C105_words : forall (F : Field), 2 <= order ->
  tidy (c_call c_bit) /\ tidy (c_call c_split) /\ (forall n, tidy (c_call (c_split_bounded n))) /\ tidy (fun es => match es with [x] => split_allowing_ambiguity x | _ => blift Panic end) /\
  (forall n, tidy (c_call (c_join n))) /\
  (forall ns, tidy (c_call (c_sum ns)) /\ tidy (c_call (c_sum_wrapping ns)) /\ tidy (c_call (c_sum_checked ns))) /\ tidy (fun es => out0 (binary_assert_zero es)) /\
  (forall n, tidy (c_call (c_wnot n))) /\
  (forall n op zop, op = bitwise_and \/ op = bitwise_or \/ op = bitwise_xor -> tidy (c_call (c_bitwise n op zop))) /\
  (forall n, tidy (fun es => rotate_inc es n) /\ tidy (fun es => rotate_dec es n) /\ tidy (fun es => shift_inc es n) /\ tidy (fun es => shift_dec es n)) /\
  (forall n less strict, tidy (fun es => out1 (cmp_binary (firstn n es) (skipn n es) less strict))) /\
  (forall less strict, tidy (fun es => match es with [x; y] => out1 (cmp x y less strict) | _ => blift Panic end)) /\
  tidy (fun es => match es with [x; y] => out1 (modulus x y) | _ => blift Panic end) /\ tidy (fun es => match es with [x; y] => out1 (divides x y) | _ => blift Panic end).
Proof.
  intros F Hord. repeat match goal with |- _ /\ _ => split end; intros; repeat match goal with |- _ /\ _ => split end; apply tidy_flow;
    try (intros N es E; cbn [c_call c_bit c_split c_split_bounded c_join c_sum c_sum_wrapping c_sum_checked c_wnot]).
  - argb E. eapply fl_bind; [apply fl_assert_boolean; eassumption|]. cbv beta. intros. apply fl_ret1. eapply below_le; eauto.
  - argb E. apply fl_split; assumption.
  - argb E. apply fl_split_bounded; assumption.
  - argb E. apply fl_split_allowing_ambiguity; assumption.
  - apply fl_out1, fl_lift. intros n' a L J. unfold bin_join in J. destruct (oassert _); cbn [obind] in J; try discriminate. eapply join_below; [exact J|]. eapply belows_le; eauto.
  - apply fl_binary_summation, belows_cut, E.
  - apply fl_summation_ignoring_overflow, belows_cut, E.
  - apply fl_summation_asserting_no_overflow, belows_cut, E.
  - eapply fl_out0, fl_binary_assert_zero; exact E.
  - apply fl_bitwise_not; exact E.
  - match goal with H0 : _ \/ _ |- _ => destruct H0 as [->|[->| ->]] end; cbn [c_call c_bitwise]; [apply fl_bitwise_and|apply fl_bitwise_or|apply fl_bitwise_xor]; (apply belows_firstn + apply belows_skipn); exact E.
  - apply fl_rotate_inc; exact E. - apply fl_rotate_dec; exact E. - apply fl_shift_inc; exact E. - apply fl_shift_dec; exact E.
  - apply fl_out1, fl_cmp_binary; [apply belows_firstn|apply belows_skipn]; exact E.
  - argb E. apply fl_out1, fl_cmp; assumption.
  - argb E. apply fl_out1, fl_modulus; assumption.
  - argb E. apply fl_out1, fl_divides; assumption.
Qed.
Print Assumptions C105_words.

Theorem C105_networks : forall (F : Field), 2 <= order ->
  (forall n, tidy (c_call (c_access n))) /\ (forall n, tidy (c_call (c_permutation n))) /\ tidy sort_ascending /\ tidy sort_descending.
Proof.
  intros F Hord. repeat match goal with |- _ /\ _ => split end; intros; apply tidy_flow; intros N es H; cbn [c_call c_access c_permutation].
  - destruct H; [apply fl_panic|]. apply fl_out1, fl_random_access; assumption.
  - eapply fl_out0, fl_assert_permutation; [assumption|apply belows_firstn; exact H|apply belows_skipn; exact H].
  - apply fl_sort_ascending; assumption.
  - apply fl_sort_descending; assumption.
Qed.
Print Assumptions C105_networks.

(** [below2 m]: the compression function [m] constrains and returns only wires that have been handed out. *)
Theorem C105_crypto : forall (F : Field), 2 <= order ->
  (forall cs n, let c := mkBC (mimc_encrypt cs (monomial n)) (mimc_decrypt cs (monomial n)) in below2 (encrypt c) /\ below2 (decrypt c) /\ below2 (davies_meyer c) /\ below2 (miyaguchi_preneel c)) /\
  (forall m, below2 m ->
     (forall H, tidy (c_call (c_compress m H))) /\ (forall H iv n, tidy (c_call (c_hash m H iv n))) /\
     (forall H n, tidy (c_call (c_root m H n))) /\ (forall H n, tidy (c_call (c_member m H n)))) /\
  (forall p, tidy (poseidon_permute p)) /\ (forall r, tidy (rescue_permute r)) /\
  (forall s, belowl (mp_permute (sp_perm s)) -> forall f n outputs, tidy (c_call (c_sponge s f n outputs))).
Proof.
  intros F Hord. repeat match goal with |- _ /\ _ => split end.
  - intros cs k c. assert (E : below2 (encrypt c)) by (intros n x y Hx Hy; apply fl_mimc_encrypt; assumption).
    split; [exact E|]. split; [intros n x y Hx Hy; apply fl_mimc_decrypt; assumption|]. split; intros n x y Hx Hy; [apply fl_davies_meyer|apply fl_miyaguchi_preneel]; assumption.
  - assert (PN : forall n p s, belows n p -> belows n s -> fl n (blift (merkle_path_new p s)) (fun n' path => belows n' (prefix path) /\ belows n' (siblings path))).
    { intros n p s Hp Hs. apply fl_lift. intros n' a L E. unfold merkle_path_new in E. destruct (oassert _); cbn [obind] in E; try discriminate. injection E as <-. cbn [prefix siblings].
      split; eapply belows_le; eauto. }
    intros m P. repeat match goal with |- _ /\ _ => split end; intros; apply tidy_flow; intros N es E; cbn [c_call c_compress c_hash c_root c_member].
    + argb E. apply fl_out1, P; assumption.
    + apply fl_out1, fl_merkle_damgard; assumption.
    + destruct E as [|? ? ? E]; [apply fl_panic|]. eapply fl_bind; [apply PN; [apply belows_firstn, E|apply belows_skipn, E]|]. cbv beta. intros n' path P' L [Hp Hs].
      apply fl_out1, fl_merkle_tree_root; [exact P|eapply below_le; eauto|assumption..].
    + destruct E as [|? ? ? E]; [apply fl_panic|]. destruct E as [|? ? ? E]; [apply fl_panic|].
      eapply fl_bind; [apply PN; [apply belows_firstn, E|apply belows_skipn, E]|]. cbv beta. intros n' path P' L [Hp Hs].
      eapply fl_out0, fl_assert_membership; [exact P|eapply below_le; eauto|eapply below_le; eauto|assumption..].
  - intros p. apply tidy_flow. intros n es E. apply fl_poseidon, E.
  - intros p. apply tidy_flow. intros n es E. apply fl_rescue, E.
  - intros s P f n o. apply tidy_flow. intros N es E. apply fl_sponge; [exact P|exact E].
Qed.
Print Assumptions C105_crypto.

Theorem C105_curve : forall (F : Field), 2 <= order -> forall C,
  let coordinates (m : B ed_expr) : B (list expr) := r <- m ;; bret [fst r; snd r] in
  tidy (c_call (c_point C)) /\
  tidy (fun es => match es with [x1; y1; x2; y2] => coordinates (ed_add_expressions C (x1, y1) (x2, y2)) | _ => blift Panic end) /\
  tidy (fun es => match es with [x; y] => coordinates (ed_double_expression C (x, y)) | _ => blift Panic end) /\
  tidy (fun es => match es with [x; y; s] => coordinates (mul_scalar_expression (edwards_group C) (x, y) s) | _ => blift Panic end) /\
  forall g h, below2 h ->
  tidy (fun es => match es with [s; e; m; x; y] => out0 (schnorr_verify (mkCyclic (edwards_group C) g) (s, e) m (x, y) h) | _ => blift Panic end).
Proof.
  intros F Hord C coordinates.
  assert (K : forall n m, fl n m below_e -> fl n (coordinates m) belows).
  { intros n m H. eapply fl_bind; [exact H|]. cbv beta. intros n' [x y] P L [Hx Hy]. apply fl_ret. intros. cbn [fst snd] in *. constructor; [eapply below_le; eauto|]. constructor; [eapply below_le; eauto|constructor]. }
  repeat match goal with |- _ /\ _ => split end; intros; apply tidy_flow; intros N es E; cbn [c_call c_point]; argb E.
  - eapply fl_out0, fl_ed_expr_new; assumption.
  - apply K, fl_ed_add; split; assumption.
  - apply K, fl_ed_double; split; assumption.
  - apply K, fl_mul_scalar; [split|]; assumption.
  - eapply fl_out0, fl_schnorr; try (split; assumption); assumption.
Qed.
Print Assumptions C105_curve.

(** Circuits put together from tidy components are tidy, so whole circuits can be exchanged. *)
Theorem C105_circuit : forall (F : Field) p, Forall (fun ci => tidy (c_call (fst ci))) p -> tidy (construct p).
Proof.
  intros F p H. induction H as [|[c is] p Hc HP IH]; intros es b r b' Hn He E; simpl in E.
  - injection E as <- <-. split; [lia|]. split; [exact He|]. exists []. rewrite app_nil_r. auto.
  - unfold bbind, blift in E. destruct (ounwrap (pick es is)) as [a| |] eqn:K; try discriminate. cbn [obind] in E. cbn [fst] in Hc.
    destruct (c_call c a b) as [[x b1]| |] eqn:E1; try discriminate.
    assert (Ha : Forall (below (next b)) a) by (apply (belows_pick (next b) es is); [exact He|]; unfold ounwrap in K; destruct (pick es is); [injection K as ->; reflexivity|discriminate]).
    destruct (Hc a b x b1 Hn Ha E1) as (L1 & X1 & c1 & C1 & D1).
    destruct (IH (es ++ x) b1 r b') as (L2 & X2 & c2 & C2 & D2); [lia|apply Forall_app; split; [eapply Forall_impl; [|exact He]; intros e; apply below_mono; exact L1|exact X1]|exact E|].
    split; [lia|]. split; [exact X2|]. exists (c1 ++ c2). split; [rewrite C2, C1, app_assoc; reflexivity|]. apply Forall_app. split; [|exact D2].
    eapply Forall_impl; [|exact D1]. cbv beta. intros d (A1 & A2 & A3). split; [|split]; eapply below_mono; eauto.
Qed.
Print Assumptions C105_circuit.

(** An inverse of wire 1 and a zero test of wire 2, over the integers modulo 7: the hypotheses hold, and the two orders lay out different constraint systems
    that the theorem identifies by exchanging wire 3 with wires 4 and 5. *)
Local Existing Instance F7.
Example C105_example :
  let b := mkB 3 [] [] in let m1 := compile [OInv 0] in let m2 := compile [ONonzero 0] in let e1 := [e_wire 1] in let e2 := [e_wire 2] in
  placeable m1 /\ placeable m2 /\ tidy m1 /\ tidy m2 /\ wf_builder b /\ Forall (fun e => below (next b) e /\ sorted e) e1 /\ Forall (fun e => below (next b) e /\ sorted e) e2 /\
  let c12 := [mkC [(1%nat, 1)] [(3%nat, 1)] [(0%nat, 1)]; mkC [(2%nat, 1)] [(5%nat, 1)] [(4%nat, 1)]; mkC [(4%nat, 6); (0%nat, 1)] [(2%nat, 1)] []] in
  let c21 := [mkC [(2%nat, 1)] [(4%nat, 1)] [(3%nat, 1)]; mkC [(3%nat, 6); (0%nat, 1)] [(2%nat, 1)] []; mkC [(1%nat, 1)] [(5%nat, 1)] [(0%nat, 1)]] in
  match (r1 <- m1 e1 ;; r2 <- m2 e2 ;; bret (r1, r2)) b with Ok ((r1, r2), c) => Some (r1, r2, constraints c) | _ => None end = Some ([e_wire 1; e_wire 3], [e_wire 2; e_wire 4], c12) /\
  match (r2 <- m2 e2 ;; r1 <- m1 e1 ;; bret (r1, r2)) b with Ok ((r1, r2), c) => Some (r1, r2, constraints c) | _ => None end = Some ([e_wire 1; e_wire 5], [e_wire 2; e_wire 3], c21) /\
  let w k := nth k [1; 3; 2; 5; 1; 4] 0 in Forall (sat1 w) c12 /\ ~ Forall (sat1 w) c21 /\ Forall (sat1 (fun k => w (exchange 3 2 1 k))) c21.
Proof.
  intros b m1 m2 e1 e2. assert (Hord : 2 <= order) by (vm_compute; discriminate).
  split; [apply (C103_operations F7 Hord)|]. split; [apply (C103_operations F7 Hord)|]. split; [apply (C105_operations F7 Hord)|]. split; [apply (C105_operations F7 Hord)|].
  split; [split; [vm_compute; lia|constructor]|].
  assert (X : forall k, (k < 3)%nat -> below (next b) (e_wire k) /\ sorted (e_wire k)) by (intros k Hk; split; [apply below_wire; exact Hk|unfold sorted; cbn; repeat constructor]).
  split; [constructor; [apply X; lia|constructor]|]. split; [constructor; [apply X; lia|constructor]|]. intros c12 c21.
  split; [vm_compute; reflexivity|]. split; [vm_compute; reflexivity|]. intro w.
  split; [|split].
  - repeat constructor; vm_compute; reflexivity.
  - intro S. inversion S as [|? ? S1 S']; subst. vm_compute in S1. discriminate.
  - repeat constructor; vm_compute; reflexivity.
Qed.
