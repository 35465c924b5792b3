(** Every generator reads wires with smaller numbers than those it sets: the order of wires through the builder calls. *)
From Coq Require Import ZArith List Bool Arith Lia Permutation.
From Verif Require Import Base FieldM FieldP ExprM BuilderM GadgetsM CryptoM WaksmanM CurveM Spec ExprP BitsP MonoP LocalP SoundP HonestP ExecP CoreP
  BimapP RouteP SettleP WaksmanP CryptoP MatrixP SpongeP CmpCompleteP SortP DetP.
Import ListNotations.
Open Scope nat_scope.

Section Flow.
Context {F : Field}.

Definition belows (n : nat) (l : list expr) : Prop := Forall (below n) l.
Definition c_below (n : nat) (c : constraint) : Prop := below n (c_a c) /\ below n (c_b c) /\ below n (c_c c).
Definition earlier (n : nat) (deps o : list nat) : Prop := forall d, In d deps -> d < n /\ forall k, In k o -> d < k.
Definition flows (n : nat) (L : list (wgen * list nat)) : Prop :=
  Forall (fun p => writes (g_inputs (fst p)) (snd p) (g_run (fst p)) /\ earlier n (g_inputs (fst p)) (snd p)) L.

(** [own], and every new generator reads only wires before those it sets and new constraints mention only wires handed out.
    [n] is a lower bound on the wires handed out before the call. *)
Definition flow {A} (n : nat) (U : list nat) (m : B A) (Q : nat -> A -> list nat -> Prop) : Prop := forall b a b', 1 <= n -> n <= next b -> m b = Ok (a, b') ->
  next b <= next b' /\ exists L U' cs, generators b' = generators b ++ map fst L /\ flows (next b') L /\ constraints b' = constraints b ++ cs /\
    Forall (c_below (next b')) cs /\ Q (next b') a U' /\ Permutation (U' ++ outs L) (U ++ seq (next b) (next b' - next b)).
Definition fl {A} (n : nat) (m : B A) (Q : nat -> A -> Prop) : Prop := flow n [] m (fun n' a U' => U' = [] /\ Q n' a).

Lemma below_le n n' e : below n e -> n <= n' -> below n' e.
Proof. intros H L. eapply over_impl; [|exact H]. cbv beta. intros. lia. Qed.
Lemma belows_le n n' l : belows n l -> n <= n' -> belows n' l.
Proof. intros H L. eapply Forall_impl; [|exact H]. intros e He. exact (below_le n n' e He L). Qed.
Lemma c_below_le n n' c : c_below n c -> n <= n' -> c_below n' c.
Proof. intros (H1 & H2 & H3) L. repeat split; eapply below_le; eauto. Qed.
Lemma below_add n x y : below n x -> below n y -> below n (e_add x y).
Proof. apply over_add. Qed.
Lemma below_sub n x y : below n x -> below n y -> below n (e_sub x y).
Proof. apply over_sub. Qed.
Lemma below_scale n x c : below n x -> below n (e_scale x c).
Proof. apply over_scale. Qed.
Lemma below_neg n x : below n x -> below n (e_neg x).
Proof. apply over_neg. Qed.
Lemma below_zero n : below n e_zero.
Proof. apply over_zero. Qed.
Lemma below_wire n k : k < n -> below n (e_wire k).
Proof. apply (over_wire (fun k => k < n)). Qed.
Lemma below_one n : 1 <= n -> below n e_one.
Proof. intro H. apply over_one. exact H. Qed.
Lemma below_const n c : 1 <= n -> below n (e_const c).
Proof. intro H. apply over_const. exact H. Qed.
Lemma below_bool n c : 1 <= n -> below n (e_bool c).
Proof. intro H. apply over_bool. exact H. Qed.
Lemma below_sum n l : belows n l -> below n (e_sum l).
Proof. apply over_sum. Qed.
Lemma belows_wires n ws : Forall (fun k => k < n) ws -> belows n (map e_wire ws).
Proof. induction 1; cbn [map]; constructor; auto using below_wire. Qed.
Lemma belows_index n l i e : belows n l -> oindex l i = Ok e -> below n e.
Proof.
  unfold oindex, ounwrap. intros H E. destruct (nth_error l i) as [e'|] eqn:N; [|discriminate]. inversion E; subst. apply nth_error_In in N.
  unfold belows in H. rewrite Forall_forall in H. apply H, N.
Qed.
Lemma belows_app n l1 l2 : belows n l1 -> belows n l2 -> belows n (l1 ++ l2).
Proof. intros. apply Forall_app. auto. Qed.
Lemma belows_firstn n k l : belows n l -> belows n (firstn k l).
Proof. intro H. rewrite <- (firstn_skipn k l) in H. apply Forall_app in H. tauto. Qed.
Lemma belows_skipn n k l : belows n l -> belows n (skipn k l).
Proof. intro H. rewrite <- (firstn_skipn k l) in H. apply Forall_app in H. tauto. Qed.

Lemma earlier_below t n deps o : t <= n -> Forall (fun d => d < t) deps -> Forall (fun k => t <= k) o -> earlier n deps o.
Proof. intros L H1 H2 d Hd. rewrite Forall_forall in H1, H2. specialize (H1 d Hd). split; [lia|]. intros k Hk. specialize (H2 k Hk). lia. Qed.
Lemma flows_le n n' L : flows n L -> n <= n' -> flows n' L.
Proof. intros H Hn. eapply Forall_impl; [|exact H]. cbv beta. intros p [W E]. split; [exact W|]. intros d Hd. destruct (E d Hd). split; [lia|assumption]. Qed.
Lemma deps_below n e : below n e -> Forall (fun d => d < n) (e_deps e).
Proof. intro H. apply Forall_forall. exact H. Qed.
Lemma deps_belows n l : belows n l -> Forall (fun d => d < n) (flat_map e_deps l).
Proof. induction 1; cbn [flat_map]; [constructor|]. apply Forall_app. split; [apply deps_below|]; assumption. Qed.

Lemma fl_pos {A} n (m : B A) Q : (1 <= n -> fl n m Q) -> fl n m Q.
Proof. intros H b a b' Hn. apply (H Hn b a b' Hn). Qed.
Lemma flow_pos {A} n U (m : B A) Q : (1 <= n -> flow n U m Q) -> flow n U m Q.
Proof. intros H b a b' Hn. apply (H Hn b a b' Hn). Qed.
Lemma flow_ret {A} n U (a : A) (Q : nat -> A -> list nat -> Prop) : (forall n', n <= n' -> Q n' a U) -> flow n U (bret a) Q.
Proof.
  intros H b x b' Hn Hb E. inversion E; subst. split; [lia|]. exists [], U, []. unfold outs. cbn [map concat]. rewrite Nat.sub_diag. cbn [seq]. rewrite !app_nil_r.
  repeat split; auto; constructor.
Qed.
Lemma flow_lift {A} n U (o : outcome A) (Q : nat -> A -> list nat -> Prop) : (forall n' a, n <= n' -> o = Ok a -> Q n' a U) -> flow n U (blift o) Q.
Proof.
  intros H b x b' Hn Hb E. unfold blift in E. destruct o; inversion E; subst. split; [lia|]. exists [], U, []. unfold outs. cbn [map concat]. rewrite Nat.sub_diag. cbn [seq].
  rewrite !app_nil_r. repeat split; auto; constructor.
Qed.
Lemma flow_weaken {A} n U (m : B A) (Q Q' : nat -> A -> list nat -> Prop) : flow n U m Q -> (forall n' a U', n <= n' -> Q n' a U' -> Q' n' a U') -> flow n U m Q'.
Proof.
  intros H W b a b' Hn Hb E. destruct (H b a b' Hn Hb E) as (N & L & U' & cs & G & D & C & B & HQ & P). split; [exact N|]. exists L, U', cs. repeat split; auto.
  apply W; [lia|exact HQ].
Qed.
Lemma flow_bind {A C} n U (m : B A) (k : A -> B C) Q Q' : flow n U m Q -> (forall n' a U', 1 <= n' -> n <= n' -> Q n' a U' -> flow n' U' (k a) Q') -> flow n U (bbind m k) Q'.
Proof.
  intros H1 H2 b c b' Hn Hb E. unfold bbind in E. destruct (m b) as [[a b1]| |] eqn:E1; try discriminate.
  destruct (H1 _ _ _ Hn Hb E1) as (N1 & L1 & U1 & cs1 & G1 & D1 & C1 & B1 & HQ1 & P1).
  destruct (H2 (next b1) a U1 ltac:(lia) ltac:(lia) HQ1 b1 c b' ltac:(lia) ltac:(lia) E) as (N2 & L2 & U2 & cs2 & G2 & D2 & C2 & B2 & HQ2 & P2).
  split; [lia|]. exists (L1 ++ L2), U2, (cs1 ++ cs2). repeat split; auto.
  - rewrite G2, G1, map_app, app_assoc. reflexivity.
  - apply Forall_app. split; [exact (flows_le _ _ _ D1 N2)|exact D2].
  - rewrite C2, C1, app_assoc. reflexivity.
  - apply Forall_app. split; [|exact B2]. eapply Forall_impl; [|exact B1]. intros x Hx. exact (c_below_le _ _ _ Hx N2).
  - rewrite outs_app. rewrite (Permutation_app_comm (outs L1)), app_assoc, P2, <- app_assoc.
    rewrite (Permutation_app_comm (seq (next b1) _)), app_assoc, P1, <- app_assoc. apply Permutation_app_head.
    replace (next b' - next b) with ((next b1 - next b) + (next b' - next b1)) by lia. rewrite seq_app.
    replace (next b + (next b1 - next b)) with (next b1) by lia. reflexivity.
Qed.
Lemma flow_frame {A} n U (m : B A) Q R : flow n U m Q -> flow n (U ++ R) m (fun n' a U' => exists U1, Q n' a U1 /\ U' = U1 ++ R).
Proof.
  intros H b a b' Hn Hb E. destruct (H b a b' Hn Hb E) as (N & L & U' & cs & G & D & C & B & HQ & P). split; [exact N|]. exists L, (U' ++ R), cs. repeat split; auto; [eauto|].
  rewrite <- app_assoc, (Permutation_app_comm R), app_assoc, P, <- !app_assoc. apply Permutation_app_head, Permutation_app_comm.
Qed.
Lemma flow_fl {A} n U (m : B A) Q : fl n m Q -> flow n U m (fun n' a U' => U' = U /\ Q n' a).
Proof. intro H. apply (flow_frame n [] m _ U) in H. cbn [app] in H. eapply flow_weaken; [exact H|]. cbv beta. intros n' a U' _ (U1 & (-> & HQ) & ->). auto. Qed.
Lemma flow_wire n U : flow n U b_wire (fun n' w U' => n <= w < n' /\ U' = w :: U).
Proof.
  intros b w b' Hn Hb E. inversion E; subst. cbn [next generators constraints]. split; [lia|]. exists [], (next b :: U), []. unfold outs. cbn [map concat].
  rewrite !app_nil_r. repeat split; auto; try lia; try constructor. replace (S (next b) - next b) with 1 by lia. cbn [seq]. apply Permutation_cons_append.
Qed.
Lemma flow_generator n U o R deps run : Permutation U (o ++ R) -> writes deps o run -> earlier n deps o -> flow n U (b_generator deps run) (fun _ _ U' => U' = R).
Proof.
  intros PU W HE b a b' Hn Hb E. inversion E; subst. cbn [next generators constraints]. split; [lia|]. exists [(mkG deps run, o)], R, []. cbn [map fst snd].
  rewrite app_nil_r. repeat split; auto.
  - apply (flows_le n); [constructor; [split; [exact W|exact HE]|constructor]|exact Hb].
  - unfold outs. cbn [map snd concat]. rewrite app_nil_r, Nat.sub_diag. cbn [seq]. rewrite app_nil_r, PU. apply Permutation_app_comm.
Qed.
Lemma fl_assert_product n x y z : below n x -> below n y -> below n z -> fl n (assert_product x y z) (fun _ _ => True).
Proof.
  intros Hx Hy Hz b a b' Hn Hb E. inversion E; subst. cbn [next generators constraints]. split; [lia|]. exists [], [], [mkC x y z]. rewrite Nat.sub_diag. cbn. rewrite app_nil_r.
  repeat split; auto; try constructor; auto. unfold c_below. cbn. repeat split; eapply below_le; eauto.
Qed.

Lemma fl_ret {A} n (a : A) (Q : nat -> A -> Prop) : (forall n', n <= n' -> Q n' a) -> fl n (bret a) Q.
Proof. intro H. apply flow_ret. auto. Qed.
Lemma fl_lift {A} n (o : outcome A) (Q : nat -> A -> Prop) : (forall n' a, n <= n' -> o = Ok a -> Q n' a) -> fl n (blift o) Q.
Proof. intro H. apply flow_lift. auto. Qed.
Lemma fl_bind {A C} n (m : B A) (k : A -> B C) Q Q' : fl n m Q -> (forall n' a, 1 <= n' -> n <= n' -> Q n' a -> fl n' (k a) Q') -> fl n (bbind m k) Q'.
Proof. intros H1 H2. eapply flow_bind; [exact H1|]. cbv beta. intros n' a U' H0 Hn [-> HQ]. apply H2; assumption. Qed.
Lemma fl_weaken {A} n (m : B A) (Q Q' : nat -> A -> Prop) : fl n m Q -> (forall n' a, n <= n' -> Q n' a -> Q' n' a) -> fl n m Q'.
Proof. intros H W. eapply flow_weaken; [exact H|]. cbv beta. intros n' a U' Hn [-> HQ]. auto. Qed.
Lemma fl_bmap {A C} n (f : A -> B C) l (Q : nat -> C -> Prop) : (forall n1 n2 c, n1 <= n2 -> Q n1 c -> Q n2 c) ->
  (forall n' a, 1 <= n' -> n <= n' -> In a l -> fl n' (f a) Q) -> fl n (bmap f l) (fun n' cs => Forall (Q n') cs).
Proof.
  intros M. revert n. induction l as [|a l IH]; intros n H; cbn [bmap]; [apply fl_ret; constructor|].
  apply fl_pos. intro Hn. eapply fl_bind; [apply H; [exact Hn|lia|left; reflexivity]|]. cbv beta. intros n1 c P1 L1 Hc.
  eapply fl_bind; [apply IH; intros; apply H; [assumption|lia|right; assumption]|]. cbv beta. intros n2 cs P2 L2 Hcs. apply fl_ret. intros n3 L3. constructor.
  - apply (M n1); [lia|exact Hc].
  - eapply Forall_impl; [|exact Hcs]. intros x. apply M. exact L3.
Qed.
Lemma fl_bmap_unit {A C} n (f : A -> B C) l : (forall n' a, 1 <= n' -> n <= n' -> In a l -> fl n' (f a) (fun _ _ => True)) -> fl n (bmap f l) (fun _ _ => True).
Proof. intro H. eapply fl_weaken; [apply (fl_bmap n f l (fun _ _ => True)); auto|]. auto. Qed.
Lemma fl_bfold {A S} n (f : S -> A -> B S) l (I : nat -> S -> Prop) : (forall n1 n2 s, n1 <= n2 -> I n1 s -> I n2 s) ->
  (forall n' s a, 1 <= n' -> n <= n' -> In a l -> I n' s -> fl n' (f s a) I) -> forall s, I n s -> fl n (bfold f l s) I.
Proof.
  intros M. revert n. induction l as [|a l IH]; intros n H s Hs; cbn [bfold]; [apply fl_ret; intros; eapply M; eauto|].
  apply fl_pos. intro Hn. eapply fl_bind; [apply H; [exact Hn|lia|left; reflexivity|exact Hs]|]. intros n1 s1 P1 L1 Hs1. apply IH; [|exact Hs1].
  intros. apply H; [assumption|lia|right; assumption|assumption].
Qed.
Lemma flow_bmap_wires {A} n (f : A -> B nat) l : (forall n' U a, n <= n' -> flow n' U (f a) (fun n'' w U' => n <= w < n'' /\ U' = w :: U)) ->
  forall U, flow n U (bmap f l) (fun n' ws U' => length ws = length l /\ Forall (fun w => n <= w < n') ws /\ Permutation U' (ws ++ U)).
Proof.
  intro H. assert (G : forall l n0 U, n <= n0 -> flow n0 U (bmap f l) (fun n' ws U' => length ws = length l /\ Forall (fun w => n <= w < n') ws /\ Permutation U' (ws ++ U))).
  - clear l. induction l as [|a l IH]; intros n0 U L0; cbn [bmap]; [apply flow_ret; intros; split; [reflexivity|split; [constructor|reflexivity]]|].
    eapply flow_bind; [apply H, L0|]. cbv beta. intros n1 w U1 P1 L1 [R1 ->]. eapply flow_bind; [apply IH; lia|]. cbv beta. intros n2 ws U2 P2 L2 (E2 & R2 & PU).
    apply flow_ret. intros n3 L3. cbn [length]. split; [congruence|]. split.
    + constructor; [lia|]. eapply Forall_impl; [|exact R2]. cbv beta. intros. lia.
    + rewrite PU. cbn [app]. symmetry. apply Permutation_middle.
  - intro U. apply G. lia.
Qed.
End Flow.

Create HintDb flow.
Ltac blw_step := first
  [ assumption
  | match goal with
    | H : below ?n ?e |- below ?n' ?e => apply (below_le n n' e H); lia
    | H : belows ?n ?l |- belows ?n' ?l => apply (belows_le n n' l H); lia
    | H : Forall (below ?n) ?l |- belows ?n' ?l => apply (belows_le n n' l H); lia
    | H : belows ?n ?l, E : oindex ?l _ = Ok ?e |- below ?n' ?e => apply (below_le n n'); [exact (belows_index n l _ e H E)|lia]
    | H : Forall (below ?n) ?l, E : oindex ?l _ = Ok ?e |- below ?n' ?e => apply (below_le n n'); [exact (belows_index n l _ e H E)|lia]
    end
  | simple apply below_add | simple apply below_sub | simple apply below_scale | simple apply below_neg | simple apply below_zero
  | simple apply below_one; lia | simple apply below_const; lia | simple apply below_bool; lia | simple apply below_wire; lia ].
Ltac blw := repeat blw_step.
Global Hint Extern 1 (below _ _) => solve [blw] : flow.
Global Hint Extern 1 (belows _ _) => solve [blw] : flow.
Ltac fll := first [eassumption | simple apply fl_assert_product; solve [blw] | solve [eauto with flow]].
Ltac flb := eapply fl_bind; [solve [fll]|]; cbv beta; intros ? ? ? ? ?.
Ltac flr := simple apply fl_ret; intros ? ?; solve [blw|exact I].
Ltac flu := eapply fl_weaken; [solve [fll]|]; cbv beta; intros; exact I.
Ltac fle := eapply fl_weaken; [solve [fll]|]; cbv beta; intros; solve [blw].
(** in the middle of a call with wires owed *)
Ltac fob := eapply flow_bind; [eapply flow_fl; solve [fll]|]; cbv beta; intros ? ? ? ? ? [-> ?].
Ltac fow := eapply flow_bind; [apply flow_wire|]; cbv beta; intros ? ? ? ? ? [? ->].

Section Calls.
Context {F : Field}.

Ltac dpf := match goal with
  | |- Forall _ (_ ++ _) => apply Forall_app; split; dpf
  | |- Forall _ (flat_map e_deps _) => apply deps_belows; solve [blw]
  | |- _ => apply deps_below; solve [blw]
  end.
Ltac dps n := apply (earlier_below n); [lia|dpf|].

Lemma fl_assert_boolean n x : below n x -> fl n (assert_boolean x) below.
Proof. intro. apply fl_pos. intro. unfold assert_boolean. flb. flr. Qed.
Lemma fl_assert_equal n x y : below n x -> below n y -> fl n (assert_equal x y) (fun _ _ => True).
Proof. intros. apply fl_pos. intro. unfold assert_equal. fll. Qed.
Hint Resolve fl_assert_boolean fl_assert_equal : flow.
Lemma fl_assert_zero n x : below n x -> fl n (assert_zero x) (fun _ _ => True).
Proof. intros. apply fl_pos. intro. unfold assert_zero. fll. Qed.
Lemma fl_assert_true n x : below n x -> fl n (assert_true x) (fun _ _ => True).
Proof. intros. apply fl_pos. intro. unfold assert_true. fll. Qed.
Lemma fl_assert_false n x : below n x -> fl n (assert_false x) (fun _ _ => True).
Proof. intros. apply fl_pos. intro. unfold assert_false. fll. Qed.
Hint Resolve fl_assert_zero fl_assert_true fl_assert_false : flow.

Lemma flow_boolean_wire n U : flow n U boolean_wire (fun n' w U' => n <= w < n' /\ U' = w :: U).
Proof. apply flow_pos. intro. unfold boolean_wire. fow. fob. apply flow_ret. intros. split; [lia|reflexivity]. Qed.
Lemma flow_wires k n U : flow n U (b_wires k) (fun n' ws U' => length ws = k /\ Forall (fun w => n <= w < n') ws /\ Permutation U' (ws ++ U)).
Proof.
  unfold b_wires. eapply flow_weaken; [apply flow_bmap_wires; intros|].
  - eapply flow_weaken; [apply flow_wire|]. cbv beta. intros n2 w U2 L [R ->]. split; [lia|reflexivity].
  - cbv beta. intros n' ws U'. rewrite seq_length. auto.
Qed.
Lemma flow_binary_wire k n U : flow n U (binary_wire k) (fun n' ws U' => length ws = k /\ Forall (fun w => n <= w < n') ws /\ Permutation U' (ws ++ U)).
Proof.
  unfold binary_wire. eapply flow_weaken; [apply flow_bmap_wires; intros|].
  - eapply flow_weaken; [apply flow_boolean_wire|]. cbv beta. intros n2 w U2 L [R ->]. split; [lia|reflexivity].
  - cbv beta. intros n' ws U'. rewrite seq_length. auto.
Qed.
Lemma range_le n n' ws : Forall (fun w => n <= w < n') ws -> Forall (fun w => n <= w) ws.
Proof. apply Forall_impl. intros. lia. Qed.
Lemma range_below n n' ws : Forall (fun w => n <= w < n') ws -> belows n' (map e_wire ws).
Proof. intro H. apply belows_wires. revert H. apply Forall_impl. intros. lia. Qed.

Lemma fl_product n x y : below n x -> below n y -> fl n (product x y) below.
Proof.
  intros Hx Hy. apply fl_pos. intro Hn. unfold product. destruct (e_as_constant x); [flr|]. destruct (e_as_constant y); [flr|].
  unfold fl. fow. rename a into w. fob. eapply flow_bind; [apply (flow_generator _ _ [w] []); [reflexivity|apply writes_product|]|].
  - dps n. repeat constructor. lia.
  - cbv beta. intros n3 ? ? ? ? ->. apply flow_ret. intros. split; [reflexivity|blw].
Qed.
Hint Resolve fl_product : flow.
Lemma fl_exponentiation n x p : below n x -> fl n (exponentiation x p) below.
Proof.
  intro Hx. apply fl_pos. intro Hn. unfold exponentiation. eapply fl_bind.
  - apply (fl_bfold n _ _ (fun n' st => below n' (fst st) /\ below n' (snd st))).
    + intros n1 n2 [s1 s2] L [H1 H2]. cbn [fst snd] in *. split; blw.
    + intros n' [s1 s2] i P L _ [H1 H2]. cbn [fst snd] in *.
      eapply (fl_bind n' _ _ below); [destruct (i =? 0); [flr|fll]|]. cbv beta. intros n1 sq P1 L1 Hs.
      eapply (fl_bind n1 _ _ below); [destruct (el_bit p i); [fll|flr]|]. cbv beta. intros n2 pr P2 L2 Hp.
      apply fl_ret. intros. cbn [fst snd]. split; blw.
    + cbn [fst snd]. split; blw.
  - cbv beta. intros n' [s1 s2] P L [H1 H2]. cbn [fst snd] in *. flr.
Qed.
Lemma fl_inverse n x : below n x -> fl n (inverse x) below.
Proof.
  intros Hx. apply fl_pos. intro Hn. unfold inverse, fl. fow. rename a into w. fob. eapply flow_bind; [apply (flow_generator _ _ [w] []); [reflexivity|apply writes_inverse|]|].
  - dps n. repeat constructor. lia.
  - cbv beta. intros n3 ? ? ? ? ->. apply flow_ret. intros. split; [reflexivity|blw].
Qed.
Hint Resolve fl_exponentiation fl_inverse : flow.
Lemma fl_assert_nonzero n x : below n x -> fl n (assert_nonzero x) (fun _ _ => True).
Proof. intros. unfold assert_nonzero. flb. flr. Qed.
Hint Resolve fl_assert_nonzero : flow.
Lemma fl_assert_nonequal n x y : below n x -> below n y -> fl n (assert_nonequal x y) (fun _ _ => True).
Proof. intros. unfold assert_nonequal. fll. Qed.
Lemma fl_nonzero n x : below n x -> fl n (nonzero x) below.
Proof.
  intros Hx. apply fl_pos. intro Hn. unfold nonzero, fl. fow. rename a into y. fow. rename a into m. fob. fob.
  eapply flow_bind; [apply (flow_generator _ _ [m; y] []); [reflexivity|apply writes_nonzero|]|].
  - dps n. repeat constructor; lia.
  - cbv beta. intros n5 ? ? ? ? ->. apply flow_ret. intros. split; [reflexivity|blw].
Qed.
Hint Resolve fl_assert_nonequal fl_nonzero : flow.
Lemma fl_not n x : below n x -> fl n (b_not x) below.
Proof. intro. apply fl_pos. intro. unfold b_not. flr. Qed.
Lemma fl_and n x y : below n x -> below n y -> fl n (b_and x y) below.
Proof. intros. unfold b_and. fll. Qed.
Lemma fl_or n x y : below n x -> below n y -> fl n (b_or x y) below.
Proof. intros. unfold b_or. flb. flr. Qed.
Lemma scale_u128_over P e c r : e_scale_u128 e c = Ok r -> over P e -> over P r.
Proof.
  unfold e_scale_u128. intros E H. destruct (omap _ e) as [l| |] eqn:O; try discriminate. inversion E; subst. clear E.
  assert (K : map fst l = map fst e).
  { clear H. revert l O. induction e as [|[k z] e IH]; intros l O; cbn [omap] in O; [inversion O; reflexivity|].
    cbn [fst snd] in O. destruct (fmul_u128 z c); cbn [obind] in O; try discriminate. destruct (omap _ e) as [t| |]; cbn [obind] in O; try discriminate.
    inversion O. cbn. f_equal. apply IH. reflexivity. }
  intros k Hk. apply H. unfold e_deps in *. rewrite <- K. unfold e_new in Hk. clear - Hk. apply in_map_iff in Hk. destruct Hk as ([k' z] & <- & Hk).
  apply filter_In in Hk. apply in_map. tauto.
Qed.
Lemma fl_xor n x y : below n x -> below n y -> fl n (b_xor x y) below.
Proof.
  intros. unfold b_xor. flb. eapply fl_bind; [apply (fl_lift _ _ below)|].
  - intros n2 r L E. apply (scale_u128_over _ _ _ _ E). fold (below n2 a). blw.
  - cbv beta. intros. flr.
Qed.
Hint Resolve fl_not fl_and fl_or fl_xor : flow.
Lemma fl_zero n x : below n x -> fl n (g_zero x) below.
Proof. intros. unfold g_zero. flb. fll. Qed.
Hint Resolve fl_zero : flow.
Lemma fl_equal n x y : below n x -> below n y -> fl n (g_equal x y) below.
Proof. intros. unfold g_equal. fll. Qed.
Lemma fl_selection n c x y : below n c -> below n x -> below n y -> fl n (selection c x y) below.
Proof. intros. unfold selection. flb. flr. Qed.
Hint Resolve fl_equal fl_selection : flow.
Lemma fl_inverse_or_zero n x : below n x -> fl n (inverse_or_zero x) below.
Proof.
  intros Hx. apply fl_pos. intro Hn. unfold inverse_or_zero, fl. fow. rename a into r. fob. fob.
  eapply flow_bind; [apply (flow_generator _ _ [r] []); [reflexivity|apply writes_inverse_or_zero|]|].
  - dps n. repeat constructor; lia.
  - cbv beta. intros n5 ? ? ? ? ->. apply flow_ret. intros. split; [reflexivity|blw].
Qed.
Lemma fl_quotient n x y : below n x -> below n y -> fl n (quotient x y) below.
Proof. intros. unfold quotient. flb. fll. Qed.
Lemma fl_quotient_unsafe n x y : below n x -> below n y -> fl n (quotient_unsafe x y) below.
Proof.
  intros Hx Hy. unfold quotient_unsafe, fl. fow. rename a into q. eapply flow_bind; [apply (flow_generator _ _ [q] []); [reflexivity|apply writes_quotient_unsafe|]|].
  - dps n. repeat constructor; lia.
  - cbv beta. intros n5 ? ? ? ? ->. apply flow_ret. intros. split; [reflexivity|blw].
Qed.
Hint Resolve fl_inverse_or_zero fl_quotient fl_quotient_unsafe : flow.

Lemma join_below n x e : bin_join_allowing_overflow x = Ok e -> belows n x -> below n e.
Proof. exact (join_over (fun k => k < n) x e). Qed.
Lemma chunks_below n c x es : (let! cs := bin_chunks x c in omap bin_join cs) = Ok es -> belows n x -> belows n es.
Proof. exact (chunks_over (fun k => k < n) c x es). Qed.
Lemma fl_split_without_range_check n x k : below n x -> fl n (split_without_range_check x k) belows.
Proof.
  intro Hx. unfold split_without_range_check, fl. eapply flow_bind; [apply flow_binary_wire|]. cbv beta. intros n1 ws U P1 L1 (Lw & Rw & PU). cbv zeta.
  rewrite app_nil_r in PU. pose proof (range_below _ _ _ Rw) as Bw.
  eapply flow_bind; [apply (flow_lift _ _ _ (fun n' e U' => U' = U /\ below n' e))|].
  { intros n' e L E. split; [reflexivity|]. apply (join_below _ _ _ E). unfold bin_of_wires. blw. }
  cbv beta. intros n2 e U2 P2 L2 [-> He]. fob.
  eapply flow_bind; [apply (flow_generator _ _ ws []); [rewrite app_nil_r; exact PU|subst k; apply writes_split|]|].
  - dps n. exact (range_le _ _ _ Rw).
  - cbv beta. intros n5 ? ? ? ? ->. apply flow_ret. intros. split; [reflexivity|unfold bin_of_wires; blw].
Qed.
Hint Resolve fl_split_without_range_check : flow.
Lemma fl_split_allowing_ambiguity n x : below n x -> fl n (split_allowing_ambiguity x) belows.
Proof. intros. unfold split_allowing_ambiguity. fll. Qed.
Lemma fl_lift_true {A} n (o : outcome A) : fl n (blift o) (fun _ _ => True).
Proof. apply fl_lift. auto. Qed.
Lemma fl_index n l i : belows n l -> fl n (blift (oindex l i)) below.
Proof. intro H. apply fl_lift. intros n' e L E. blw. Qed.
Hint Resolve fl_index : flow.
Lemma fl_split_bounded n x k : below n x -> fl n (split_bounded x k) belows.
Proof. intros. unfold split_bounded. eapply fl_bind; [apply fl_lift_true|]. cbv beta. intros. fll. Qed.
Hint Resolve fl_split_allowing_ambiguity fl_split_bounded : flow.
Lemma fl_cmp_subtractive n d l s k : below n d -> fl n (cmp_subtractive d l s k) below.
Proof.
  intros. unfold cmp_subtractive. eapply fl_bind; [apply fl_lift_true|]. cbv beta. intros n1 z P1 L1 _. cbv zeta.
  eapply fl_bind; [apply fl_split_bounded; destruct l; blw|]. cbv beta. intros. fll.
Qed.
Hint Resolve fl_cmp_subtractive : flow.
Lemma fl_chunks_eq n c x : belows n x -> fl n (blift (let! cs := bin_chunks x c in omap bin_join cs)) (fun n' es => belows n' es /\ (let! cs := bin_chunks x c in omap bin_join cs) = Ok es).
Proof.
  intro H. apply fl_lift. intros n' es L E. split; [|exact E]. apply (chunks_below _ _ _ _ E). blw.
Qed.
Lemma bin_deps_below n x : belows n x -> Forall (fun k => k < n) (bin_deps x).
Proof.
  intro H. apply Forall_forall. intros k Hk. apply bin_deps_In in Hk; [|exact (fun _ => True)]. destruct Hk as (e & He & Hk). unfold belows in H. rewrite Forall_forall in H. exact (H e He k Hk).
Qed.
Lemma fl_cmp_binary n x y l s : belows n x -> belows n y -> fl n (cmp_binary x y l s) below.
Proof.
  intros Hx Hy. unfold cmp_binary. eapply fl_bind; [apply fl_lift_true|]. cbv beta. intros n1 _ P1 L1 _. cbv zeta.
  eapply fl_bind; [apply (fl_chunks_eq n1); blw|]. cbv beta. intros n2 xc P2 L2 [Bx Ex].
  eapply fl_bind; [apply (fl_chunks_eq n2); blw|]. cbv beta. intros n3 yc P3 L3 [By Ey].
  unfold fl. eapply flow_bind; [apply flow_wires|]. cbv beta. intros n4 mask U P4 L4 (Lm & Rm & PU). rewrite app_nil_r in PU.
  assert (Bm : forall n' k, n4 <= n' -> In k mask -> below n' (e_wire k)).
  { intros n' k Ln Hk. apply below_wire. rewrite Forall_forall in Rm. specialize (Rm k Hk). lia. }
  eapply flow_bind; [eapply flow_fl, fl_bmap_unit|].
  { intros n' k Pn Ln Hk. eapply fl_weaken; [apply fl_assert_boolean, Bm; assumption|]. auto. }
  cbv beta. intros n5 u U5 P5 L5 [-> _].
  eapply flow_bind; [eapply flow_fl, fl_assert_boolean|].
  { apply (over_sum_of_wires (fun k => k < n5)). eapply Forall_impl; [|exact Rm]. cbv beta. intros. lia. }
  cbv beta. intros n6 de U6 P6 L6 [-> Hde].
  eapply flow_bind; [apply (flow_generator _ _ mask []); [rewrite app_nil_r; exact PU| |]|].
  { apply writes_mask; intros i e E; [apply incl_appl|apply incl_appr]; eapply chunks_deps; eauto. }
  { apply (earlier_below n3); [lia|apply Forall_app; split; apply bin_deps_below; blw|exact (range_le _ _ _ Rm)]. }
  cbv beta. intros n7 u7 U7 P7 L7 ->.
  eapply flow_bind; [eapply flow_fl, (fl_bfold n7 _ _ below)|].
  { intros. blw. }
  { intros n' st i Pn Ln Hi Hs. flb. flb. eapply fl_bind; [apply (fl_lift _ _ (fun _ k => In k mask))|].
    { intros n'' k _ E. unfold oindex, ounwrap in E. destruct (nth_error mask i) eqn:N; [|discriminate]. inversion E; subst. exact (nth_error_In _ _ N). }
    cbv beta. intros n'' k Pk Lk Hk. pose proof (Bm n'' k ltac:(lia) Hk). flb. flr. }
  { blw. }
  cbv beta. intros n8 dc U8 P8 L8 [-> Hdc].
  eapply flow_bind; [eapply flow_fl, (fl_lift _ _ (fun _ k => In k mask))|].
  { intros n'' k _ E. unfold oindex, ounwrap in E. destruct (nth_error mask 0) eqn:N; [|discriminate]. inversion E; subst. exact (nth_error_In _ _ N). }
  cbv beta. intros n9 m0 U9 P9 L9 [-> Hm0].
  eapply flow_bind; [eapply flow_fl, (fl_bfold n9 _ _ below)|].
  { intros. blw. }
  { intros n' st i Pn Ln Hi Hs. flb. flb. flb. eapply fl_bind; [apply (fl_lift _ _ (fun _ k => In k mask))|].
    { intros n'' k _ E. unfold oindex, ounwrap in E. destruct (nth_error mask i) eqn:N; [|discriminate]. inversion E; subst. exact (nth_error_In _ _ N). }
    cbv beta. intros n'' k Pk Lk Hk. pose proof (Bm n'' k ltac:(lia) Hk). flr. }
  { apply Bm; [lia|exact Hm0]. }
  cbv beta. intros n10 ds U10 P10 L10 [-> Hds].
  eapply flow_bind; [apply (flow_fl _ _ _ (fun _ _ => True))|].
  { destruct s; [flr|]. flb. fll. }
  cbv beta. intros n11 u11 U11 P11 L11 [-> _]. refine (fl_cmp_subtractive _ _ _ _ _ _). blw.
Qed.
Hint Resolve fl_cmp_binary : flow.
Lemma fl_lt_binary n x y : belows n x -> belows n y -> fl n (assert_lt_binary x y) (fun _ _ => True).
Proof. intros. unfold assert_lt_binary, lt_binary. flb. fll. Qed.
Lemma fl_le_binary n x y : belows n x -> belows n y -> fl n (assert_le_binary x y) (fun _ _ => True).
Proof. intros. unfold assert_le_binary, le_binary. flb. fll. Qed.
Lemma fl_gt_binary n x y : belows n x -> belows n y -> fl n (assert_gt_binary x y) (fun _ _ => True).
Proof. intros. unfold assert_gt_binary, gt_binary. flb. fll. Qed.
Lemma fl_ge_binary n x y : belows n x -> belows n y -> fl n (assert_ge_binary x y) (fun _ _ => True).
Proof. intros. unfold assert_ge_binary, ge_binary. flb. fll. Qed.
Hint Resolve fl_lt_binary fl_le_binary fl_gt_binary fl_ge_binary : flow.
Lemma belows_from n z : 1 <= n -> belows n (bin_from z).
Proof. intro H. unfold bin_from. apply Forall_forall. intros e He. apply in_map_iff in He. destruct He as (i & <- & _). apply below_bool, H. Qed.
Lemma fl_split n x : below n x -> fl n (split x) belows.
Proof. intros. unfold split. flb. pose proof (fun z => belows_from n' z ltac:(assumption)). flb. flr. Qed.
Hint Resolve fl_split : flow.
Lemma fl_cmp n x y l s : below n x -> below n y -> fl n (cmp x y l s) below.
Proof. intros. unfold cmp. destruct l; flb; flb; fll. Qed.
Hint Resolve fl_cmp : flow.
Lemma fl_lt n x y : below n x -> below n y -> fl n (assert_lt x y) (fun _ _ => True).
Proof. intros. unfold assert_lt, lt. flb. fll. Qed.
Lemma fl_le n x y : below n x -> below n y -> fl n (assert_le x y) (fun _ _ => True).
Proof. intros. unfold assert_le, le. flb. fll. Qed.
Lemma fl_gt n x y : below n x -> below n y -> fl n (assert_gt x y) (fun _ _ => True).
Proof. intros. unfold assert_gt, gt. flb. fll. Qed.
Lemma fl_ge n x y : below n x -> below n y -> fl n (assert_ge x y) (fun _ _ => True).
Proof. intros. unfold assert_ge, ge. flb. fll. Qed.
Hint Resolve fl_lt fl_le fl_gt fl_ge : flow.
Lemma fl_modulus n x y : below n x -> below n y -> fl n (modulus x y) below.
Proof.
  intros Hx Hy. unfold modulus, fl. fow. rename a into q. fow. rename a into r. fob. fob.
  eapply flow_bind; [apply (flow_generator _ _ [q; r] []); [apply perm_swap|apply writes_modulus|]|].
  - dps n. repeat constructor; lia.
  - cbv beta. intros n5 ? ? ? ? ->. apply flow_ret. intros. split; [reflexivity|blw].
Qed.
Hint Resolve fl_modulus : flow.
Lemma fl_divides n x y : below n x -> below n y -> fl n (divides x y) below.
Proof. intros. unfold divides. flb. fll. Qed.

Lemma fl_binary_summation n ts : Forall (belows n) ts -> fl n (binary_summation ts) belows.
Proof.
  intro H. unfold binary_summation. cbv zeta. eapply fl_bind; [apply fl_lift_true|]. cbv beta. intros n1 _ P1 L1 _.
  unfold fl. eapply flow_bind; [apply flow_binary_wire|]. cbv beta. intros n2 ws U P2 L2 (Lw & Rw & PU). rewrite app_nil_r in PU. pose proof (range_below _ _ _ Rw) as Bw.
  eapply flow_bind; [eapply flow_fl, (fl_lift _ _ (fun n' js => belows n js))|].
  { intros n' js L E. clear - E H. revert js E. induction H as [|t ts Ht _ IH]; intros js E; cbn [omap] in E; [inversion E; constructor|].
    unfold bin_join at 1 in E. destruct (oassert _); cbn [obind] in E; try discriminate. destruct (bin_join_allowing_overflow t) as [e| |] eqn:J; cbn [obind] in E; try discriminate.
    destruct (omap bin_join ts) as [l| |]; cbn [obind] in E; try discriminate. inversion E; subst. constructor; [exact (join_over _ _ _ J Ht)|]. apply IH. reflexivity. }
  cbv beta. intros n3 js U3 P3 L3 [-> Hjs]. pose proof (below_sum n js Hjs) as Hs.
  eapply flow_bind; [eapply flow_fl, (fl_lift _ _ below)|].
  { intros n' e L E. unfold bin_join in E. destruct (oassert _); cbn [obind] in E; try discriminate. apply (join_below _ _ _ E). unfold bin_of_wires. blw. }
  cbv beta. intros n4 sj U4 P4 L4 [-> Hsj]. fob.
  eapply flow_bind; [apply (flow_generator _ _ ws []); [rewrite app_nil_r; exact PU|apply writes_summation|]|].
  - dps n. eapply Forall_impl; [|exact (range_le _ _ _ Rw)]. cbv beta. intros. lia.
  - cbv beta. intros n6 ? ? ? ? ->. apply flow_ret. intros. split; [reflexivity|unfold bin_of_wires; blw].
Qed.
Hint Resolve fl_divides fl_binary_summation : flow.
Lemma belows_chunks n c x cs : bin_chunks x c = Ok cs -> belows n x -> Forall (belows n) cs.
Proof.
  unfold bin_chunks, chunks. destruct (c =? 0); [discriminate|]. intros E H. inversion E; subst. clear E. generalize (length x) as f. revert H. generalize x. clear.
  intros x H f. revert x H. induction f as [|f IH]; intros x H; cbn [chunks_fuel]; [constructor|]. destruct x as [|e x]; [constructor|].
  constructor; [apply belows_firstn, H|]. apply IH, belows_skipn, H.
Qed.
Lemma fl_binary_assert_zero n x : belows n x -> fl n (binary_assert_zero x) (fun _ _ => True).
Proof.
  intro H. unfold binary_assert_zero. eapply fl_bind; [apply fl_lift_true|]. cbv beta. intros n1 k P1 L1 _.
  eapply fl_bind; [apply (fl_lift _ _ (fun n' cs => Forall (belows n) cs))|].
  { intros n' cs L E. exact (belows_chunks _ _ _ _ E H). }
  cbv beta. intros n2 cs P2 L2 Hcs. eapply fl_bind; [apply fl_bmap_unit|cbv beta; intros; flr].
  intros n' c Pn Ln Hc. rewrite Forall_forall in Hcs. specialize (Hcs c Hc). eapply fl_bind; [apply (fl_lift _ _ below)|].
  { intros n'' e L E. unfold bin_join in E. destruct (oassert _); cbn [obind] in E; try discriminate. apply (join_below _ _ _ E). blw. }
  cbv beta. intros. fll.
Qed.
Hint Resolve fl_binary_assert_zero : flow.
Lemma fl_truncate n x k : belows n x -> fl n (blift (bin_truncate x k)) belows.
Proof.
  intro H. apply fl_lift. intros n' r L E. unfold bin_truncate in E. destruct (oassert _); cbn [obind] in E; try discriminate. inversion E. apply belows_firstn. blw.
Qed.
Hint Resolve fl_truncate : flow.
Lemma fl_summation_ignoring_overflow n ts : Forall (belows n) ts -> fl n (binary_summation_ignoring_overflow ts) belows.
Proof. intro. unfold binary_summation_ignoring_overflow. flb. fll. Qed.
Lemma fl_summation_asserting_no_overflow n ts : Forall (belows n) ts -> fl n (binary_summation_asserting_no_overflow ts) belows.
Proof.
  intro. unfold binary_summation_asserting_no_overflow. flb. eapply fl_bind; [apply (fl_lift _ _ belows)|].
  { intros n2 r L E. unfold oslice_from in E. destruct (oassert _); cbn [obind] in E; try discriminate. inversion E. apply belows_skipn. blw. }
  cbv beta. intros. flb. fll.
Qed.
Lemma In_below n x e : belows n x -> In e x -> below n e.
Proof. intros H I. unfold belows in H. rewrite Forall_forall in H. auto. Qed.
Lemma below_mono n1 n2 e : n1 <= n2 -> below n1 e -> below n2 e.
Proof. intros. blw. Qed.
Lemma fl_bmap_e {A} n (f : A -> B expr) l : (forall n' a, 1 <= n' -> n <= n' -> In a l -> fl n' (f a) below) -> fl n (bmap f l) belows.
Proof. apply fl_bmap. exact below_mono. Qed.
Lemma fl_bitwise_not n x : belows n x -> fl n (bitwise_not x) belows.
Proof. intro H. unfold bitwise_not. apply fl_bmap_e. intros n' e P L He. pose proof (In_below _ _ _ H He). fll. Qed.
Lemma fl_bitwise2 n op x y : (forall n a b, below n a -> below n b -> fl n (op a b) below) -> belows n x -> belows n y -> fl n (bitwise2 op x y) belows.
Proof.
  intros Ho Hx Hy. unfold bitwise2. eapply fl_bind; [apply fl_lift_true|]. cbv beta. intros n1 _ P1 L1 _. apply fl_bmap_e. intros n' i P L _. flb. flb. apply Ho; blw.
Qed.
Lemma fl_bitwise_and n x y : belows n x -> belows n y -> fl n (bitwise_and x y) belows.
Proof. apply fl_bitwise2, fl_and. Qed.
Lemma fl_bitwise_or n x y : belows n x -> belows n y -> fl n (bitwise_or x y) belows.
Proof. apply fl_bitwise2, fl_or. Qed.
Lemma fl_bitwise_xor n x y : belows n x -> belows n y -> fl n (bitwise_xor x y) belows.
Proof. apply fl_bitwise2, fl_xor. Qed.
Lemma fl_rotate_inc n x k : belows n x -> fl n (rotate_inc x k) belows.
Proof. intro. unfold rotate_inc. cbv zeta. apply fl_bmap_e. intros. eapply fl_bind; [apply fl_lift_true|]. cbv beta. intros. fll. Qed.
Lemma fl_rotate_dec n x k : belows n x -> fl n (rotate_dec x k) belows.
Proof. intro. unfold rotate_dec. cbv zeta. apply fl_bmap_e. intros. fll. Qed.
Lemma fl_shift_inc n x k : belows n x -> fl n (shift_inc x k) belows.
Proof. intro. unfold shift_inc. cbv zeta. apply fl_bmap_e. intros n' i P L _. destruct (i <? k); [flr|fll]. Qed.
Lemma fl_shift_dec n x k : belows n x -> fl n (shift_dec x k) belows.
Proof. intro. unfold shift_dec. cbv zeta. apply fl_bmap_e. intros n' i P L _. eapply fl_bind; [apply fl_lift_true|]. cbv beta. intros n2 d P2 L2 _. destruct (i <? d); [fll|flr]. Qed.
Lemma fl_select_pairs b : forall k items n, length items < k -> below n b -> belows n items -> fl n (select_pairs b items) belows.
Proof.
  induction k as [|k IH]; intros items n L Hb H; [lia|]. destruct items as [|x [|y l]]; cbn [select_pairs]; [apply fl_ret; constructor|flr|]. cbn [length] in L.
  inversion H as [|? ? Hx H']; subst. inversion H' as [|? ? Hy Hl]; subst. flb. eapply fl_bind; [apply IH; [lia|blw|blw]|]. cbv beta. intros n2 ss P2 L2 Hss.
  apply fl_ret. intros n3 L3. constructor; [blw|]. fold (belows n3 ss). blw.
Qed.
Lemma fl_random_access_binary bits : forall items n, belows n items -> belows n bits -> fl n (random_access_binary items bits) below.
Proof.
  induction bits as [|b bits IH]; intros items n Hi Hb.
  - destruct items as [|x [|y l]]; cbn [random_access_binary]; try (apply fl_lift; discriminate). inversion Hi; subst.
    eapply fl_bind; [apply fl_lift_true|]. cbv beta. intros. flr.
  - inversion Hb as [|? ? Hb1 Hb2]; subst. assert (G : fl n (bbind (select_pairs b items) (fun parents => random_access_binary parents bits)) below).
    { eapply fl_bind; [apply (fl_select_pairs b (S (length items))); [lia|blw|blw]|]. cbv beta. intros n2 ps P2 L2 Hps. apply IH; blw. }
    destruct items as [|x [|y l]]; cbn [random_access_binary]; [exact G| |exact G]. inversion Hi; subst. eapply fl_bind; [apply fl_lift_true|]. cbv beta. intros. flr.
Qed.
Lemma fl_random_access n items i : belows n items -> below n i -> fl n (random_access items i) below.
Proof. intros. unfold random_access. flb. apply fl_random_access_binary; blw. Qed.

Lemma flow_create_switch n U x y : below n x -> below n y ->
  flow n U (create_switch x y) (fun n' t U' => U' = fst (fst t) :: U /\ n <= fst (fst t) < n' /\ below n' (snd (fst t)) /\ below n' (snd t)).
Proof.
  intros. unfold create_switch. eapply flow_bind; [apply flow_boolean_wire|]. cbv beta. intros n1 w U' P1 L1 [R ->]. fob.
  apply flow_ret. intros. cbn [fst snd]. repeat split; try lia; blw.
Qed.
Lemma flow_switch_layer n U l k : belows n l -> flow n U (switch_layer l k) (fun n' ts U' => length ts = k /\
  Forall (fun t => n <= fst (fst t) < n' /\ below n' (snd (fst t)) /\ below n' (snd t)) ts /\ Permutation U' (map (fun t => fst (fst t)) ts ++ U)).
Proof.
  intro Hl. unfold switch_layer.
  assert (G : forall is n0 U, n <= n0 -> flow n0 U (bmap (fun i => x <- blift (oindex l (i * 2));; y <- blift (oindex l (i * 2 + 1));; create_switch x y) is)
    (fun n' ts U' => length ts = length is /\ Forall (fun t => n <= fst (fst t) < n' /\ below n' (snd (fst t)) /\ below n' (snd t)) ts /\ Permutation U' (map (fun t => fst (fst t)) ts ++ U))).
  { clear U. induction is as [|i is IH]; intros n0 U L0; cbn [bmap]; [apply flow_ret; intros; split; [reflexivity|split; [constructor|reflexivity]]|].
    eapply flow_bind.
    { eapply flow_bind; [eapply flow_fl, fl_index; blw|]. cbv beta. intros n1 x U1 P1 L1 [-> Hx]. eapply flow_bind; [eapply flow_fl, fl_index; blw|].
      cbv beta. intros n2 y U2 P2 L2 [-> Hy]. eapply flow_weaken; [apply flow_create_switch; blw|]. cbv beta. intros n3 t U3 L3 (E & R & H1 & H2).
      exact (conj E (conj (conj (Nat.le_trans _ _ _ (Nat.le_trans _ _ _ L0 (Nat.le_trans _ _ _ L1 L2)) (proj1 R)) (proj2 R)) (conj H1 H2))). }
    cbv beta. intros n1 t U1 P1 L1 (-> & R & H1 & H2). eapply flow_bind; [apply IH; lia|]. cbv beta. intros n2 ts U2 P2 L2 (Ln & Rs & PU).
    apply flow_ret. intros n3 L3. cbn [length map]. split; [congruence|]. split.
    - constructor; [split; [lia|split; blw]|]. eapply Forall_impl; [|exact Rs]. cbv beta. intros s (Q1 & Q2 & Q3). split; [lia|split; blw].
    - rewrite PU. cbn [app]. symmetry. apply Permutation_middle. }
  eapply flow_weaken; [apply (G (seq 0 k)); lia|]. cbv beta. intros n' ts U' _. rewrite seq_length. auto.
Qed.
Lemma fl_2x2 n a b c d : below n a -> below n b -> below n c -> below n d -> fl n (assert_permutation_2x2 a b c d) (fun _ _ => True).
Proof.
  intros. unfold assert_permutation_2x2, fl. eapply flow_bind; [apply flow_create_switch; blw|]. cbv beta. intros n1 [[w c'] d'] U P1 L1 (-> & R & H3 & H4). cbn [fst snd] in *. fob. fob.
  eapply flow_weaken; [apply (flow_generator _ _ [w] []); [reflexivity|apply writes_2x2|]|auto].
  dps n. repeat constructor. lia.
Qed.
Hint Resolve fl_2x2 : flow.
Lemma fl_net (Hord : (2 <= order)%Z) f n a b : (forall n a b, belows n a -> belows n b -> fl n (assert_permutation_fuel f a b) (fun _ _ => True)) -> 3 <= length a ->
  belows n a -> belows n b -> fl n (net f a b) (fun _ _ => True).
Proof.
  intros IH Ha Ba Bb. unfold net, fl. cbv zeta. eapply flow_bind; [apply flow_switch_layer, Ba|]. cbv beta. intros n1 las U P1 L1 (La & RA & PA).
  eapply flow_bind; [apply flow_switch_layer; blw|]. cbv beta. intros n2 lbs U' P2 L2 (Lb & RB & PB). rewrite PA, app_nil_r in PB. clear U PA.
  assert (Ba1 : belows n2 (map (fun s => snd (fst s)) las)) by (apply Forall_map; eapply Forall_impl; [|exact RA]; cbv beta; intros t (_ & T & _); blw).
  assert (Ba2 : belows n2 (map snd las)) by (apply Forall_map; eapply Forall_impl; [|exact RA]; cbv beta; intros t (_ & _ & T); blw).
  assert (Bb1 : belows n2 (map (fun s => snd (fst s)) lbs)) by (apply Forall_map; eapply Forall_impl; [|exact RB]; cbv beta; intros t (_ & T & _); blw).
  assert (Bb2 : belows n2 (map snd lbs)) by (apply Forall_map; eapply Forall_impl; [|exact RB]; cbv beta; intros t (_ & _ & T); blw).
  eapply flow_bind; [apply (flow_fl _ _ _ (fun n' t => belows n' (fst (fst (fst t))) /\ belows n' (snd (fst (fst t))) /\ belows n' (snd (fst t)) /\ belows n' (snd t)))|].
  { destruct (Nat.even (length a)); flb; flb; apply fl_ret; intros n5 L5; cbn [fst snd]; (split; [|split; [|split]]); try (apply belows_app); blw; constructor; blw; constructor. }
  cbv beta. intros n3 [[[c1a c1b] c2a] c2b] U P3 L3 [-> (H1 & H2 & H3 & H4)]. cbn [fst snd] in *.
  eapply flow_bind; [eapply flow_fl, IH; blw|]. cbv beta. intros n4 _ U P4 L4 [-> _]. eapply flow_bind; [eapply flow_fl, IH; blw|]. cbv beta. intros n5 _ U P5 L5 [-> _].
  eapply flow_weaken; [apply (flow_generator _ _ (map (fun s => fst (fst s)) las ++ map (fun s => fst (fst s)) lbs) [])|cbv beta; auto].
  - rewrite app_nil_r, PB. apply Permutation_app_comm.
  - apply writes_route; auto; rewrite map_length; [exact La|exact Lb].
  - apply (earlier_below n); [lia|apply Forall_app; split; apply deps_belows; assumption|]. apply Forall_app. split; apply Forall_map.
    + eapply Forall_impl; [|exact RA]. cbv beta. intros t (T & _). lia.
    + eapply Forall_impl; [|exact RB]. cbv beta. intros t (T & _). lia.
Qed.
Lemma fl_fuel (Hord : (2 <= order)%Z) : forall f n a b, belows n a -> belows n b -> fl n (assert_permutation_fuel f a b) (fun _ _ => True).
Proof.
  induction f as [|f IH]; intros n a b Ba Bb; [apply fl_lift; discriminate|].
  destruct (Nat.eq_dec (length a) (length b)) as [L|L]; [|intros s x s' _ _ E; rewrite (fuel_mismatch f a b L) in E; discriminate].
  destruct (Nat.le_gt_cases 3 (length a)) as [G|G].
  - rewrite (fuel_unfold f a b G L). eapply fl_bind; [apply fl_lift_true|]. cbv beta. intros n1 _ P1 L1 _. apply fl_net; [exact Hord|exact IH|lia|blw|blw].
  - destruct a as [|x1 [|x2 [|x3 a]]]; cbn [length] in G; try lia; destruct b as [|y1 [|y2 [|y3 b]]]; cbn [length] in L; try discriminate; cbn [assert_permutation_fuel];
      (eapply fl_bind; [apply fl_lift_true|]; cbv beta; intros n1 _ P1 L1 _); repeat match goal with H : belows _ (_ :: _) |- _ => inversion H; clear H; subst | H : Forall _ (_ :: _) |- _ => inversion H; clear H; subst end;
      [flr|fll|fll].
Qed.
Lemma fl_assert_permutation (Hord : (2 <= order)%Z) n a b : belows n a -> belows n b -> fl n (assert_permutation a b) (fun _ _ => True).
Proof. apply fl_fuel, Hord. Qed.

Lemma fl_sort_ascending (Hord : (2 <= order)%Z) n l : belows n l -> fl n (sort_ascending l) belows.
Proof.
  intro Hl. unfold sort_ascending, fl. cbv zeta. eapply flow_bind; [apply flow_wires|]. cbv beta. intros n1 ws U P1 L1 (Lw & Rw & PU). rewrite app_nil_r in PU. pose proof (range_below _ _ _ Rw) as Bw.
  eapply flow_bind; [eapply flow_fl, fl_assert_permutation; [exact Hord|blw|blw]|]. cbv beta. intros n2 _ U2 P2 L2 [-> _].
  eapply flow_bind; [eapply flow_fl, fl_lift_true|]. cbv beta. intros n3 k U3 P3 L3 [-> _].
  eapply flow_bind; [eapply flow_fl, (fl_bmap n3 _ _ belows)|].
  { intros. blw. }
  { intros n' e Pn Ln He. apply fl_split_allowing_ambiguity. assert (H : below n1 e) by (eapply In_below; [apply belows_firstn, Bw|exact He]). blw. }
  cbv beta. intros n4 first U4 P4 L4 [-> Hf]. fob. fob. rename a0 into last.
  eapply flow_bind; [eapply flow_fl, fl_bmap_unit|].
  { intros n9 i Pn Ln _. assert (G : forall j, fl n9 (blift (oindex (first ++ [last]) j)) belows).
    { intro j. apply fl_lift. intros n'' x L E. unfold oindex, ounwrap in E. destruct (nth_error (first ++ [last]) j) as [x'|] eqn:N; [|discriminate]. inversion E; subst.
      apply nth_error_In, in_app_or in N. destruct N as [N|[<-|[]]]; [|blw]. rewrite Forall_forall in Hf. specialize (Hf x N). blw. }
    eapply fl_bind; [apply G|]. cbv beta. intros m1 x Q1 M1 Hx. assert (G' : fl m1 (blift (oindex (first ++ [last]) (i + 1))) belows).
    { apply fl_lift. intros n'' y L E. unfold oindex, ounwrap in E. destruct (nth_error (first ++ [last]) (i + 1)) as [x'|] eqn:N; [|discriminate]. inversion E; subst.
      apply nth_error_In, in_app_or in N. destruct N as [N|[<-|[]]]; [|blw]. rewrite Forall_forall in Hf. specialize (Hf y N). blw. }
    eapply fl_bind; [apply G'|]. cbv beta. intros. fll. }
  cbv beta. intros n7 _ U7 P7 L7 [-> _].
  eapply flow_bind; [apply (flow_generator _ _ ws []); [rewrite app_nil_r; exact PU|apply writes_sort, Lw|]|].
  - dps n. exact (range_le _ _ _ Rw).
  - cbv beta. intros n8 ? ? ? ? ->. apply flow_ret. intros. split; [reflexivity|blw].
Qed.
Lemma fl_sort_descending (Hord : (2 <= order)%Z) n l : belows n l -> fl n (sort_descending l) belows.
Proof.
  intro. unfold sort_descending. eapply fl_bind; [apply fl_sort_ascending; [exact Hord|blw]|]. cbv beta. intros n1 r P1 L1 Hr. apply fl_ret. intros n2 L2. apply Forall_rev. fold (belows n2 r). blw.
Qed.

Lemma fl_monomial_inverse n k x : below n x -> fl n (monomial_inverse k x) below.
Proof.
  intro Hx. unfold monomial_inverse, fl. fow. rename a into r. fob. fob. eapply flow_bind; [eapply flow_fl, fl_lift_true|]. cbv beta. intros n4 e U4 P4 L4 [-> _].
  eapply flow_bind; [apply (flow_generator _ _ [r] []); [reflexivity|apply writes_root|]|].
  - dps n. repeat constructor. lia.
  - cbv beta. intros n5 ? ? ? ? ->. apply flow_ret. intros. split; [reflexivity|blw].
Qed.
Hint Resolve fl_monomial_inverse : flow.
Lemma fl_monomial n k x : below n x -> fl n (permute (monomial k) x) below.
Proof. cbn [permute p_inverse monomial]. apply fl_exponentiation. Qed.
Lemma fl_mimc_encrypt n cs k key x : below n key -> below n x -> fl n (mimc_encrypt cs (monomial k) key x) below.
Proof.
  intros. unfold mimc_encrypt. cbn [permute p_inverse monomial]. flb. eapply fl_bind; [apply (fl_bfold _ _ _ below)|cbv beta; intros; flr].
  - exact below_mono.
  - intros. fll.
  - blw.
Qed.
Lemma fl_mimc_decrypt n cs k key x : below n key -> below n x -> fl n (mimc_decrypt cs (monomial k) key x) below.
Proof.
  intros. unfold mimc_decrypt. cbn [permute p_inverse monomial]. eapply fl_bind; [apply (fl_bfold _ _ _ below)|cbv beta; intros; flb; flr].
  - exact below_mono.
  - intros. flb. flr.
  - blw.
Qed.
Lemma fl_davies_meyer n c x y : (forall n k i, below n k -> below n i -> fl n (encrypt c k i) below) -> below n x -> below n y -> fl n (davies_meyer c x y) below.
Proof. intros H Hx Hy. unfold davies_meyer. eapply fl_bind; [apply H; blw|]. cbv beta. intros. flr. Qed.
Lemma fl_miyaguchi_preneel n c x y : (forall n k i, below n k -> below n i -> fl n (encrypt c k i) below) -> below n x -> below n y -> fl n (miyaguchi_preneel c x y) below.
Proof. intros H Hx Hy. unfold miyaguchi_preneel. eapply fl_bind; [apply H; blw|]. cbv beta. intros. flr. Qed.
Definition below2 (m : compression) : Prop := forall n x y, below n x -> below n y -> fl n (m x y) below.
Lemma fl_merkle_damgard n iv m blocks : below2 m -> belows n blocks -> fl n (merkle_damgard iv m blocks) below.
Proof.
  intros H Hb. apply fl_pos. intro Hn. unfold merkle_damgard. eapply fl_bind; [apply (fl_bfold _ _ _ below)|].
  - exact below_mono.
  - intros n' s a P L Ha Hs. pose proof (In_below _ _ _ Hb Ha). apply H; blw.
  - blw.
  - cbv beta. intros n1 c P1 L1 Hc. eapply fl_bind; [apply (fl_lift _ _ below)|].
    { intros n' e L E. unfold e_from_uint in E. destruct (el_from _); cbn [obind] in E; try discriminate. inversion E. blw. }
    cbv beta. intros n2 e P2 L2 He. apply H; blw.
Qed.
Lemma fl_merkle_tree_root n m leaf path : below2 m -> below n leaf -> belows n (prefix path) -> belows n (siblings path) -> fl n (merkle_tree_root m leaf path) below.
Proof.
  intros H Hl Hp Hs. unfold merkle_tree_root, merkle_tree_step. apply (fl_bfold _ _ _ below); [exact below_mono| |exact Hl].
  intros n' c [b s] P L Hi Hc. cbn [fst snd]. pose proof (In_below _ _ _ Hp (in_combine_l _ _ _ _ Hi)). pose proof (In_below _ _ _ Hs (in_combine_r _ _ _ _ Hi)). flb. apply H; blw.
Qed.
Lemma fl_assert_membership n m leaf root path : below2 m -> below n leaf -> below n root -> belows n (prefix path) -> belows n (siblings path) ->
  fl n (assert_merkle_tree_membership m leaf root path) (fun _ _ => True).
Proof. intros. unfold assert_merkle_tree_membership. eapply fl_bind; [apply fl_merkle_tree_root; eassumption|]. cbv beta. intros. fll. Qed.
Definition belowl (m : list expr -> B (list expr)) : Prop := forall n xs, belows n xs -> fl n (m xs) belows.
Definition below_pair (n : nat) (p : list expr * list expr) : Prop := belows n (fst p) /\ belows n (snd p).
Lemma fl_sponge_step n sp i c : belowl (mp_permute (sp_perm sp)) -> belows n i -> belows n c -> fl n (sponge_step sp i c) below_pair.
Proof.
  intros M Hi Hc. unfold sponge_step. cbv zeta. eapply fl_bind; [apply M, belows_app; blw|]. cbv beta. intros n1 ns P1 L1 Hs.
  eapply fl_bind; [apply fl_lift_true|]. cbv beta. intros n2 _ P2 L2 _. eapply fl_bind; [apply fl_lift_true|]. cbv beta. intros n3 _ P3 L3 _.
  apply fl_ret. intros. split; cbn [fst snd]; [apply belows_firstn|apply belows_skipn]; blw.
Qed.
Lemma fl_sponge_squeeze sp k : belowl (mp_permute (sp_perm sp)) -> forall fuel n i c o, belows n i -> belows n c -> belows n o -> fl n (sponge_squeeze fuel sp i c o k) belows.
Proof.
  intros M fuel. induction fuel as [|f IH]; intros n i c o Hi Hc Ho; cbn [sponge_squeeze]; destruct (length o <? k)%nat; try flr; [apply fl_lift; discriminate|].
  eapply fl_bind; [apply fl_sponge_step; [exact M|blw|blw]|]. cbv beta. intros n1 [i' c'] P1 L1 [Hi' Hc']. cbn [fst snd] in *. apply IH; [blw|blw|apply belows_app; blw].
Qed.
Lemma sponge_add_below n sec : forall chunk res, sponge_add sec chunk = Ok res -> belows n sec -> belows n chunk -> belows n res.
Proof.
  induction sec as [|e sec IH]; intros [|c chunk] res E H1 H2; cbn [sponge_add] in E; try discriminate; try (inversion E; subst; exact H1).
  destruct (sponge_add sec chunk) as [r| |] eqn:R; cbn [obind] in E; try discriminate. inversion E; subst. inversion H1; subst. inversion H2; subst.
  constructor; [blw|]. exact (IH _ _ R ltac:(assumption) ltac:(assumption)).
Qed.
Lemma belows_repeat n k : belows n (repeat e_zero k).
Proof. induction k; cbn; constructor; auto using below_zero. Qed.
Lemma fl_sponge n sp inputs k : belowl (mp_permute (sp_perm sp)) -> belows n inputs -> fl n (sponge_evaluate sp inputs k) belows.
Proof.
  intros M Hi. unfold sponge_evaluate. eapply fl_bind; [apply (fl_lift _ _ (fun _ cs => Forall (belows n) cs))|].
  { intros n' cs L E. exact (belows_chunks n (bitrate sp) inputs cs E Hi). }
  cbv beta. intros n1 cs P1 L1 Hcs. eapply fl_bind; [apply (fl_bfold _ _ _ below_pair)|].
  - intros m1 m2 [i c] L [H1 H2]. split; cbn [fst snd] in *; blw.
  - intros n' [i c] ch P L Hch [H1 H2]. cbn [fst snd] in *. rewrite Forall_forall in Hcs. specialize (Hcs ch Hch). eapply fl_bind; [apply (fl_lift _ _ belows)|].
    { intros n'' r L' E. apply (sponge_add_below _ _ _ _ E); blw. }
    cbv beta. intros n2 r P2 L2 Hr. apply fl_sponge_step; [exact M|blw|blw].
  - split; cbn [fst snd]; apply belows_repeat.
  - cbv beta. intros n2 [i c] P2 L2 [H1 H2]. cbn [fst snd] in *. eapply fl_bind; [apply fl_sponge_squeeze; [exact M|blw|blw|blw]|]. cbv beta. intros n3 o P3 L3 Ho.
    apply fl_ret. intros. apply belows_firstn. blw.
Qed.
Lemma fl_sbox n sb x : below n x -> fl n (sbox_permute sb x) below.
Proof.
  intro H. unfold sbox_permute, sbox_to_permutation. destruct sb.
  1,2: destruct (el_from _) as [e| |]; cbn [obind]; try (intros b a b' _ _ E; discriminate E);
    destruct (monomial_new e) as [k| |]; cbn [obind]; try (intros b a b' _ _ E; discriminate E); exact (fl_monomial n k x H).
  exact (fl_inverse_or_zero n x H).
Qed.
Lemma belows_matrix n rows xs : belows n xs -> belows n (matrix_mul rows xs).
Proof.
  intro H. unfold matrix_mul. apply Forall_forall. intros e He. apply in_map_iff in He. destruct He as ([r v] & <- & Hi). cbn [fst snd].
  pose proof (In_below _ _ _ H (in_combine_r _ _ _ _ Hi)) as Hv. assert (G : forall z, below n z -> below n (fold_left (fun sum c => e_add sum (e_scale v c)) r z)).
  { clear - Hv. induction r as [|c r IH]; intros z Hz; cbn [fold_left]; [exact Hz|]. apply IH. blw. }
  apply G. blw.
Qed.
Lemma fl_poseidon n p xs : belows n xs -> fl n (poseidon_permute p xs) belows.
Proof.
  intro H. unfold poseidon_permute. eapply fl_bind; [apply fl_lift_true|]. cbv beta. intros n1 _ P1 L1 _. eapply fl_bind; [apply fl_lift_true|]. cbv beta. intros n2 _ P2 L2 _.
  apply (fl_bfold _ _ _ belows); [intros; blw| |blw]. intros n' st r P L _ Hst. eapply (fl_bind _ _ _ belows).
  - destruct (poseidon_full_round p r).
    + apply fl_bmap_e. intros n3 e P3 L3 He. apply fl_sbox. pose proof (In_below _ _ _ Hst He). blw.
    + destruct st as [|e es]; cbn [update_first]; [apply fl_lift; discriminate|]. inversion Hst; subst. eapply fl_bind; [apply fl_sbox; eassumption|]. cbv beta. intros n3 e' P3 L3 He'.
      apply fl_ret. intros n4 L4. constructor; [blw|]. assert (belows n' es) by assumption. fold (belows n4 es). blw.
  - cbv beta. intros n3 s P3 L3 Hs. apply fl_ret. intros. apply belows_matrix. blw.
Qed.
Lemma fl_rescue n r xs : belows n xs -> fl n (rescue_permute r xs) belows.
Proof.
  intro H. unfold rescue_permute, rescue_pi1, rescue_pi2. cbn [permute p_inverse monomial].
  apply (fl_bfold _ _ _ belows); [intros; blw| |blw]. intros n' st i P L _ Hst. eapply (fl_bind _ _ _ belows).
  - apply fl_bmap_e. intros n3 e P3 L3 He. pose proof (In_below _ _ _ Hst He). eapply fl_bind; [apply fl_lift_true|]. cbv beta. intros. fll.
  - cbv beta. intros n3 c1 P3 L3 Hc1. pose proof (belows_matrix n3 (res_mds r) c1 Hc1) as Hm. eapply (fl_bind _ _ _ belows).
    + apply fl_bmap_e. intros n4 e P4 L4 He. pose proof (In_below _ _ _ Hm He). eapply fl_bind; [apply fl_lift_true|]. cbv beta. intros. fll.
    + cbv beta. intros n4 c2 P4 L4 Hc2. apply fl_ret. intros. apply belows_matrix. blw.
Qed.
Definition below_e (n : nat) (p : expr * expr) : Prop := below n (fst p) /\ below n (snd p).
Lemma below_e_mono n1 n2 p : n1 <= n2 -> below_e n1 p -> below_e n2 p.
Proof. intros L [H1 H2]. split; blw. Qed.
Lemma fl_ed_expr_new n C x y : below n x -> below n y -> fl n (ed_expr_new C x y) below_e.
Proof. intros. apply fl_pos. intro. unfold ed_expr_new. flb. flb. flb. flb. apply fl_ret. intros. split; cbn [fst snd ed_new_unsafe]; blw. Qed.
Lemma fl_ed_add n C l r : below_e n l -> below_e n r -> fl n (ed_add_expressions C l r) below_e.
Proof.
  destruct l as [x1 y1], r as [x2 y2]. intros [H1 H2] [H3 H4]. cbn [fst snd] in *. unfold ed_add_expressions.
  flb. flb. flb. flb. flb. flb. flb. apply fl_ret. intros. split; cbn [fst snd ed_new_unsafe]; blw.
Qed.
Lemma fl_ed_double n C p : below_e n p -> fl n (ed_double_expression C p) below_e.
Proof.
  destruct p as [x y]. intros [H1 H2]. cbn [fst snd] in *. unfold ed_double_expression.
  flb. flb. flb. eapply fl_bind; [apply fl_lift_true|]. cbv beta. intros. flb. eapply fl_bind; [apply (fl_lift _ _ below)|].
  { intros n9 e L E. unfold e_from_uint in E. destruct (el_from _); cbn [obind] in E; try discriminate. inversion E. blw. }
  cbv beta. intros. flb. apply fl_ret. intros. split; cbn [fst snd ed_new_unsafe]; blw.
Qed.
Lemma fl_ed_identity n C : fl n (blift (identity_expression (edwards_group C))) below_e.
Proof.
  apply fl_pos. intro Hn. apply fl_lift. intros n' e L E. unfold identity_expression in E. destruct (identity_element (edwards_group C)) as [p| |]; cbn [obind] in E; try discriminate.
  inversion E. cbn [g_of_elem edwards_group ed_of_point]. unfold ed_of_point. split; cbn [fst snd]; blw.
Qed.
Lemma fl_mul_boolean n C p b : below_e n p -> below n b -> fl n (mul_boolean_expression (edwards_group C) p b) below_e.
Proof.
  intros [H1 H2] Hb. unfold mul_boolean_expression. eapply fl_bind; [apply fl_ed_identity|]. cbv beta. intros n1 id P1 L1 [I1 I2].
  cbn [to_components edwards_group from_components_unsafe] in *. eapply (fl_bind _ _ _ belows).
  - apply fl_bmap_e. intros n2 [i e] P2 L2 Hi. cbn [fst snd]. apply in_combine_r in Hi. eapply fl_bind; [apply (fl_lift _ _ below)|].
    { intros n3 c L3 E. unfold ounwrap in E. destruct (nth_error [fst id; snd id] i) as [c'|] eqn:N; [|discriminate]. inversion E; subst. apply nth_error_In in N.
      destruct N as [<-|[<-|[]]]; blw. }
    cbv beta. intros n3 c P3 L3 Hc. assert (below n e) by (destruct Hi as [<-|[<-|[]]]; assumption). fll.
  - cbv beta. intros n2 r P2 L2 Hr. apply fl_lift. intros n3 e L3 E. destruct r as [|x [|y r]]; try discriminate. inversion E. inversion Hr as [|? ? Hx Hr']; subst. inversion Hr'; subst.
    split; cbn [fst snd ed_new_unsafe]; blw.
Qed.
Lemma fl_mul_scalar n C p e : below_e n p -> below n e -> fl n (mul_scalar_expression (edwards_group C) p e) below_e.
Proof.
  intros Hp He. unfold mul_scalar_expression. flb. rename a into bits. eapply fl_bind; [apply fl_ed_identity|]. cbv beta. intros n2 id P2 L2 Hid.
  eapply fl_bind; [apply (fl_bfold _ _ _ (fun n st => below_e n (fst st) /\ below_e n (snd st)))|].
  - intros n3 n4 [s c] L [Q1 Q2]. cbn [fst snd] in *. split; eapply below_e_mono; eassumption.
  - intros n3 [s c] b P3 L3 Hb [Q1 Q2]. cbn [fst snd] in *. assert (Bb : below n3 b) by (pose proof (In_below _ _ _ H1 Hb); blw).
    eapply fl_bind; [apply fl_mul_boolean; eassumption|]. cbv beta. intros n4 bp P4 L4 Hbp.
    eapply fl_bind; [exact (fl_ed_add n4 C _ _ (below_e_mono _ _ _ L4 Q1) Hbp)|]. cbv beta. intros n5 sm P5 L5 Hsm.
    eapply fl_bind; [exact (fl_ed_double n5 C _ (below_e_mono n3 n5 c (Nat.le_trans _ _ _ L4 L5) Q2))|]. cbv beta. intros n6 cu P6 L6 Hcu.
    apply fl_ret. intros n7 L7. cbn [fst snd]. split; eapply below_e_mono; [|eassumption| |eassumption]; lia.
  - cbn [fst snd]. split; [exact Hid|]. eapply below_e_mono; [|exact Hp]. lia.
  - cbv beta. intros n3 [s c] P3 L3 [Q1 Q2]. cbn [fst snd] in *. apply fl_ret. intros. eapply below_e_mono; eassumption.
Qed.
Lemma fl_schnorr n C gen sg msg pk (m : compression) : below2 m -> below_e n sg -> below n msg -> below_e n pk ->
  fl n (schnorr_verify (mkCyclic (edwards_group C) gen) sg msg pk m) (fun _ _ => True).
Proof.
  intros H [S1 S2] Hm Hpk. apply fl_pos. intro Hn. unfold schnorr_verify. cbn [cg_group]. eapply fl_bind; [apply (fl_lift _ _ below_e)|].
  { intros n1 e L E. unfold generator_expression in E. cbn [generator_element cg_group] in E. destruct gen as [p| |]; cbn [obind] in E; try discriminate.
    inversion E. cbn [g_of_elem edwards_group]. unfold ed_of_point. split; cbn [fst snd]; blw. }
  cbv beta. intros n1 g P1 L1 Hg. eapply fl_bind; [apply fl_mul_scalar; [exact Hg|blw]|]. cbv beta. intros n2 gs P2 L2 Hgs.
  eapply fl_bind; [apply fl_mul_scalar; [eapply below_e_mono; [|exact Hpk]; lia|blw]|]. cbv beta. intros n3 ye P3 L3 Hye.
  eapply fl_bind; [exact (fl_ed_add n3 C _ _ (below_e_mono _ _ _ L3 Hgs) Hye)|]. cbv beta. intros n4 r P4 L4 [R1 R2]. cbn [compressed edwards_group].
  eapply fl_bind; [apply H; blw|]. cbv beta. intros. fll.
Qed.
End Calls.

(** ** Execution *)
Section Exec.
Context {F : Field}.

(** Some generator panics although its inputs have values, after others have run. *)
Definition panics_at (gs : list wgen) (v : values) : Prop := exists ran g rest v1,
  Permutation gs (ran ++ g :: rest) /\ runs_in_order ran v v1 /\ available v1 (g_inputs g) /\ g_run g v1 = Panic.

Lemma exec_pass_panic gs : forall v, exec_pass gs v = Panic -> panics_at gs v.
Proof.
  induction gs as [|g gs IH]; intros v E; cbn [exec_pass] in E; [discriminate|]. destruct (v_contains_all v (g_inputs g)) eqn:C.
  - apply contains_all_available in C. destruct (g_run g v) as [u| |] eqn:R; cbn [obind] in E; try discriminate.
    + destruct (exec_pass gs u) as [[[k1 v1] p1]| |] eqn:E1; cbn [obind] in E; try discriminate. destruct (IH u E1) as (ran & h & rest & v1 & P & H & A & X).
      exists (g :: ran), h, rest, v1. cbn [app]. split; [constructor; exact P|]. split; [econstructor; eauto|]. auto.
    + exists [], g, gs, v. cbn [app]. split; [reflexivity|]. split; [constructor|]. auto.
  - destruct (exec_pass gs v) as [[[k1 v1] p1]| |] eqn:E1; cbn [obind] in E; try discriminate. destruct (IH v E1) as (ran & h & rest & v1 & P & H & A & X).
    exists ran, h, (g :: rest), v1. split; [rewrite P; rewrite Permutation_middle; apply Permutation_app_head, perm_swap|]. auto.
Qed.
Lemma exec_loop_panic fuel : forall gs v, exec_loop fuel gs v = Panic -> panics_at gs v.
Proof.
  induction fuel as [|f IH]; intros gs v E; cbn [exec_loop] in E; [discriminate|]. destruct (exec_pass gs v) as [[[k1 v1] p1]| |] eqn:E1; cbn [obind] in E; try discriminate.
  - destruct p1; [|discriminate]. destruct (exec_pass_rio _ _ _ _ _ E1) as (d & P & H & _). destruct (IH _ _ E) as (ran & h & rest & v2 & P2 & H2 & A & X).
    exists (d ++ ran), h, rest, v2. split; [rewrite P, P2, app_assoc; reflexivity|]. split; [eapply rio_app; eauto|]. auto.
  - apply exec_pass_panic. exact E1.
Qed.
Lemma ready_parts L1 L2 v : ready (L1 ++ L2) v -> ready L1 v.
Proof.
  intros (W & ND & U). rewrite outs_app in *. destruct (NoDup_app_parts _ _ ND) as (N1 & N2 & N3). split; [apply Forall_app in W; tauto|]. split; [exact N1|].
  intros k Hk. apply U, in_or_app. auto.
Qed.
Lemma flow_all fuel L v n kept v' : flows n L -> ready L v -> (forall k, k < n -> In k (outs L) \/ m_get k v <> None) ->
  exec_loop fuel (map fst L) v = Ok (kept, v') -> kept = [] /\ forall k, k < n -> m_get k v' <> None.
Proof.
  intros HF R Hv E. destruct (exec_loop_rio _ _ _ _ _ E) as (d & P & H & S). apply Permutation_sym, Permutation_map_inv in P. destruct P as (L' & EL & PL).
  symmetry in EL. apply map_eq_app in EL. destruct EL as (L1 & L2 & -> & <- & <-). pose proof (ready_perm _ _ _ PL R) as R'.
  assert (HF2 : flows n L2). { unfold flows in *. rewrite (Permutation_Forall PL) in HF. apply Forall_app in HF. tauto. }
  destruct (rio_sets L1 v v' (ready_parts _ _ _ R') H) as [I1 I2]. pose proof (outs_perm _ _ PL) as PO. rewrite outs_app in PO.
  assert (All : forall k, k < n -> m_get k v' <> None).
  { induction k as [k IH] using lt_wf_ind. intro Hk. destruct (in_dec Nat.eq_dec k (outs L1)) as [J|J]; [apply I1, J|].
    destruct (Hv k Hk) as [O|O]; [|rewrite I2 by exact J; exact O]. apply (Permutation_in _ PO), in_app_or in O. destruct O as [O|O]; [contradiction|]. exfalso.
    unfold outs in O. apply in_concat in O. destruct O as (o & Ho & Hko). apply in_map_iff in Ho. destruct Ho as (q & <- & Hq).
    rewrite Forall_forall in S. specialize (S (fst q) (in_map fst _ _ Hq)). unfold flows in HF2. rewrite Forall_forall in HF2. destruct (HF2 q Hq) as [_ HE].
    assert (A : v_contains_all v' (g_inputs (fst q)) = true); [|congruence]. apply contains_all_available. intros j Hj. destruct (HE j Hj) as [B1 B2]. apply IH; [exact (B2 k Hko)|exact B1]. }
  split; [|exact All]. destruct L2 as [|q L2]; [reflexivity|]. exfalso. cbn [map] in S. inversion S as [|? ? S1 _]; subst. inversion HF2 as [|? ? [_ HE] _]; subst.
  assert (A : v_contains_all v' (g_inputs (fst q)) = true); [|congruence]. apply contains_all_available. intros j Hj. apply All. exact (proj1 (HE j Hj)).
Qed.
Lemma evaluate_set v e : (forall k, In k (e_deps e) -> m_get k v <> None) -> exists x, e_evaluate v e = Ok x.
Proof.
  unfold e_evaluate, e_deps. generalize fzero. induction e as [|[k c] e IH]; intros z H; cbn [ofold]; [eauto|]. cbn [fst snd].
  unfold v_get, ounwrap. destruct (m_get k v) as [y|] eqn:G; [|exfalso; apply (H k); [left; reflexivity|exact G]]. cbn [obind]. apply IH. intros j Hj. apply H. right. exact Hj.
Qed.
Lemma oall_set v n cs : Forall (c_below n) cs -> (forall k, k < n -> m_get k v <> None) -> exists ok, oall (c_evaluate v) cs = Ok ok.
Proof.
  intros H A. induction H as [|c cs (H1 & H2 & H3) _ IH]; cbn [oall]; [eauto|]. destruct IH as [ok IH].
  assert (X : exists ok, c_evaluate v c = Ok ok).
  { unfold c_evaluate. destruct (evaluate_set v (c_a c)) as [a ->]; [intros k Hk; apply A, H1, Hk|]. destruct (evaluate_set v (c_b c)) as [b ->]; [intros k Hk; apply A, H2, Hk|].
    destruct (evaluate_set v (c_c c)) as [d ->]; [intros k Hk; apply A, H3, Hk|]. cbn [obind]. eauto. }
  destruct X as [[] ->]; cbn [obind]; eauto.
Qed.
Lemma execute_flow L cs v n : flows n L -> Forall (c_below n) cs -> ready L v -> (forall k, k < n -> In k (outs L) \/ m_get k v <> None) ->
  (exists ok v', execute (mkGadget cs (map fst L)) v = Ok (ok, v') /\ forall k, k < n -> m_get k v' <> None) \/
  (execute (mkGadget cs (map fst L)) v = Panic /\ panics_at (map fst L) v).
Proof.
  intros HF HC R Hv. unfold execute. cbn [gd_generators gd_constraints].
  destruct (exec_loop (S (length (map fst L))) (map fst L) v) as [[kept v']| |] eqn:E; cbn [obind].
  - destruct (flow_all _ _ _ _ _ _ HF R Hv E) as [-> All]. cbn [length oassert Nat.eqb obind]. destruct (oall_set v' n cs HC All) as [ok ->]. cbn [obind]. left. eauto.
  - right. split; [reflexivity|]. exact (exec_loop_panic _ _ _ E).
  - exfalso. revert E. pose proof (exec_loop_guarded (S (length (map fst L))) L v R) as G. destruct (exec_loop _ (map fst L) v) as [[]| |]; try discriminate. intros _.
    destruct (exec_loop _ (map guarded L) v) as [[k1 v1]| |] eqn:EG; try contradiction. revert EG. apply exec_loop_fuel; [|rewrite !map_length; lia].
    destruct R as (W & ND & _). clear - W ND. induction L as [|p L IH]; cbn [map]; constructor.
    + inversion W as [|? ? W1 _]; subst. rewrite outs_cons in ND. destruct (NoDup_app_parts _ _ ND) as (N1 & _ & _). intro u. unfold guarded. cbn [g_run].
      destruct (fresh_all u (snd p)) eqn:FA; [|discriminate]. rewrite fresh_all_spec in FA. destruct W1 as [W1 _]. specialize (W1 N1 u u (fun k _ => eq_refl) FA FA).
      destruct (g_run (fst p) u); [discriminate|discriminate|contradiction].
    + inversion W; subst. rewrite outs_cons in ND. apply IH; [assumption|]. apply (NoDup_app_parts _ _ ND).
Qed.
End Exec.
