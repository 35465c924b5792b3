(** Lags of the library calls: all generators run in the first pass, except behind [modulus], [monomial_inverse], permutation networks and sorting. *)
From Coq Require Import ZArith List Bool Arith Lia Permutation.
From Verif Require Import Base FieldM FieldP ExprM BuilderM GadgetsM CryptoM WaksmanM CurveM Spec ExprP BitsP MonoP LocalP SoundP HonestP ExecP CoreP
  BimapP RouteP SettleP WaksmanP CryptoP MatrixP SpongeP CmpP CmpCompleteP SortP RefuseP DetP TickP.
Import ListNotations.
Open Scope nat_scope.
Implicit Types n : nat -> Prop.

Section Known.
Context {F : Field}.
Definition overs (K : nat -> Prop) (l : list expr) : Prop := Forall (over K) l.
(** lag 0 *)
Definition t0 {A} (K : nat -> Prop) (m : B A) (Q : (nat -> Prop) -> A -> Prop) : Prop := tk K 0 m Q.

Lemma kn_le n n' e : over n e -> sub n n' -> over n' e.
Proof. intros H L. exact (over_impl n n' e L H). Qed.
Lemma kns_le n n' l : overs n l -> sub n n' -> overs n' l.
Proof. intros H L. eapply Forall_impl; [|exact H]. intros e He. exact (kn_le n n' e He L). Qed.
Lemma kn_add n x y : over n x -> over n y -> over n (e_add x y).
Proof. apply over_add. Qed.
Lemma kn_sub n x y : over n x -> over n y -> over n (e_sub x y).
Proof. apply over_sub. Qed.
Lemma kn_scale n x c : over n x -> over n (e_scale x c).
Proof. apply over_scale. Qed.
Lemma kn_neg n x : over n x -> over n (e_neg x).
Proof. apply over_neg. Qed.
Lemma kn_zero n : over n e_zero.
Proof. apply over_zero. Qed.
Lemma kn_wire n k : n k -> over n (e_wire k).
Proof. apply (over_wire n). Qed.
Lemma kn_one n : n ONE -> over n e_one.
Proof. apply over_one. Qed.
Lemma kn_const n c : n ONE -> over n (e_const c).
Proof. apply over_const. Qed.
Lemma kn_bool n c : n ONE -> over n (e_bool c).
Proof. apply over_bool. Qed.
Lemma kn_sum n l : overs n l -> over n (e_sum l).
Proof. apply over_sum. Qed.
Lemma kns_wires n ws : (forall k, In k ws -> n k) -> overs n (map e_wire ws).
Proof. intro H. apply Forall_map, Forall_forall. intros k Hk. apply kn_wire, H, Hk. Qed.
Lemma kns_index n l i e : overs n l -> oindex l i = Ok e -> over n e.
Proof.
  unfold oindex, ounwrap. intros H E. destruct (nth_error l i) as [e'|] eqn:N; [|discriminate]. inversion E; subst. apply nth_error_In in N.
  unfold overs in H. rewrite Forall_forall in H. apply H, N.
Qed.
Lemma kns_app n l1 l2 : overs n l1 -> overs n l2 -> overs n (l1 ++ l2).
Proof. intros. apply Forall_app. auto. Qed.
Lemma kns_firstn n k l : overs n l -> overs n (firstn k l).
Proof. intro H. rewrite <- (firstn_skipn k l) in H. apply Forall_app in H. tauto. Qed.
Lemma kns_skipn n k l : overs n l -> overs n (skipn k l).
Proof. intro H. rewrite <- (firstn_skipn k l) in H. apply Forall_app in H. tauto. Qed.
Lemma deps_kns n l : overs n l -> forall d, In d (flat_map e_deps l) -> n d.
Proof. intros H d Hd. apply in_flat_map in Hd. destruct Hd as (e & He & Hd). unfold overs in H. rewrite Forall_forall in H. exact (H e He d Hd). Qed.
Lemma deps_app n l1 l2 : (forall d, In d l1 -> n d) -> (forall d, In d l2 -> n d) -> forall d, In d (l1 ++ l2) -> n d.
Proof. intros H1 H2 d Hd. apply in_app_or in Hd. destruct Hd; auto. Qed.

Lemma t0_pos {A} n (m : B A) Q : (n ONE -> t0 n m Q) -> t0 n m Q.
Proof. apply tk_pos. Qed.
Lemma t0_ret {A} n (a : A) (Q : (nat -> Prop) -> A -> Prop) : (forall n', sub n n' -> Q n' a) -> t0 n (bret a) Q.
Proof. apply tk_ret. Qed.
Lemma t0_lift {A} n (o : outcome A) (Q : (nat -> Prop) -> A -> Prop) : (forall n' a, sub n n' -> o = Ok a -> Q n' a) -> t0 n (blift o) Q.
Proof. apply tk_lift. Qed.
Lemma t0_bind {A C} n (m : B A) (k : A -> B C) Q Q' : t0 n m Q -> (forall n' a, n' ONE -> sub n n' -> Q n' a -> t0 n' (k a) Q') -> t0 n (bbind m k) Q'.
Proof. apply (tk_bind n 0). Qed.
Lemma t0_weaken {A} n (m : B A) (Q Q' : (nat -> Prop) -> A -> Prop) : t0 n m Q -> (forall n' a, sub n n' -> Q n' a -> Q' n' a) -> t0 n m Q'.
Proof. intros H W. exact (tk_weaken n 0 0 m Q Q' H (le_n _) W). Qed.
Lemma t0_bmap {A C} n (f : A -> B C) l (Q : (nat -> Prop) -> C -> Prop) : (forall n1 n2 c, sub n1 n2 -> Q n1 c -> Q n2 c) ->
  (forall n' a, n' ONE -> sub n n' -> In a l -> t0 n' (f a) Q) -> t0 n (bmap f l) (fun n' cs => Forall (Q n') cs).
Proof. intros M H. apply tk_bmap; [exact M|exact H]. Qed.
Lemma t0_bmap_unit {A C} n (f : A -> B C) l : (forall n' a, n' ONE -> sub n n' -> In a l -> t0 n' (f a) (fun _ _ => True)) -> t0 n (bmap f l) (fun _ _ => True).
Proof. intro H. eapply t0_weaken; [apply (t0_bmap n f l (fun _ _ => True)); auto|]. auto. Qed.
Lemma t0_bfold {A T} n (f : T -> A -> B T) l (I : (nat -> Prop) -> T -> Prop) : (forall n1 n2 s, sub n1 n2 -> I n1 s -> I n2 s) ->
  (forall n' s a, n' ONE -> sub n n' -> In a l -> I n' s -> t0 n' (f s a) I) -> forall s, I n s -> t0 n (bfold f l s) I.
Proof. intros M H s Hs. exact (tk_bfold 0 f l I M n H s Hs). Qed.
Lemma t0_generator n deps o run : (forall d, In d deps -> n d) -> writes deps o run -> t0 n (b_generator deps run) (fun n' _ => forall d, In d o -> n' d).
Proof. apply tk_generator. Qed.
Lemma t0_assert_product n x y z : t0 n (assert_product x y z) (fun _ _ => True).
Proof. apply tk_silent. intros b a b' E. inversion E; subst. auto. Qed.
Lemma t0_wire n : t0 n b_wire (fun _ _ => True).
Proof. apply tk_silent. intros b a b' E. inversion E; subst. auto. Qed.
Lemma t0_boolean_of n x : t0 n (assert_boolean x) (fun _ r => r = x).
Proof. apply tk_silent. intros b a b' E. inversion E; subst. auto. Qed.
Lemma bmap_silent {A C} (f : A -> B C) l : (forall a b c b', f a b = Ok (c, b') -> generators b' = generators b) ->
  forall b cs b', bmap f l b = Ok (cs, b') -> generators b' = generators b /\ length cs = length l.
Proof.
  intro H. induction l as [|a l IH]; intros b cs b' E; cbn [bmap] in E; [inversion E; subst; auto|]. unfold bbind in E.
  destruct (f a b) as [[c b1]| |] eqn:E1; try discriminate. destruct (bmap f l b1) as [[cs1 b2]| |] eqn:E2; try discriminate. inversion E; subst.
  destruct (IH _ _ _ E2) as [G L]. rewrite G, (H _ _ _ _ E1). cbn [length]. auto.
Qed.
Lemma t0_wires n k : t0 n (b_wires k) (fun _ ws => length ws = k).
Proof.
  apply tk_silent. intros b ws b' E. unfold b_wires in E. apply bmap_silent in E; [rewrite seq_length in E; exact E|]. intros a b0 c b0' E0. inversion E0. reflexivity.
Qed.
Lemma t0_binary_wire n k : t0 n (binary_wire k) (fun _ ws => length ws = k).
Proof.
  apply tk_silent. intros b ws b' E. unfold binary_wire in E. apply bmap_silent in E; [rewrite seq_length in E; exact E|]. intros a b0 c b0' E0. inversion E0. reflexivity.
Qed.
(** the same wires, promised *)
Lemma promised n k ws : tick n k (bret ws) (fun n' r O => r = ws /\ O = ws /\ forall w, In w ws -> n' w).
Proof.
  apply tick_silent. intros b r b' E. inversion E; subst. split; [reflexivity|]. exists (fun d => n d \/ In d r), r. split; [intros d Hd; auto|]. split; [auto|]. auto.
Qed.
Lemma tick_promise n k j (m : B (list wire)) : tk n k m (fun _ ws => length ws = j) -> tick n k m (fun n' ws O => length ws = j /\ O = ws /\ forall w, In w ws -> n' w).
Proof.
  intros H HK b ws b' E. destruct (H HK _ _ _ E) as (R & K' & O & G & Y & T & S & C & -> & L). exists R, (fun d => K' d \/ In d ws), ws. split; [exact G|]. split; [exact Y|].
  split; [apply (ranked_weaken _ _ k k R T); [intros d [D|[]]; auto|lia]|]. split; [intros d Hd; left; exact (S d Hd)|]. split; [|auto].
  intros d [Hd|Hd]; [|auto]. destruct (C d Hd) as [X|[[]|X]]; auto.
Qed.
End Known.

Ltac subk := solve [ assumption | apply sub_refl | match goal with H : sub ?a ?c |- sub ?b ?c => apply (sub_trans b a c); [subk|exact H] end ].
Ltac knw := match goal with
  | |- ?K ONE => first [assumption | match goal with H : ?n ONE |- _ => apply (fun S : sub n K => S ONE H); subk end]
  | H : ?n ?k |- ?K ?k => apply (fun S : sub n K => S k H); subk
  | H : forall d, In d ?o -> ?n d |- ?K ?k => apply (fun S : sub n K => S k (H k ltac:(cbn; auto))); subk
  end.

Create HintDb tickdb.
Ltac blw_step := first
  [ assumption
  | match goal with
    | H : over ?n ?e |- over ?n' ?e => apply (kn_le n n' e H); subk
    | H : overs ?n ?l |- overs ?n' ?l => apply (kns_le n n' l H); subk
    | H : Forall (over ?n) ?l |- overs ?n' ?l => apply (kns_le n n' l H); subk
    | H : overs ?n ?l, E : oindex ?l _ = Ok ?e |- over ?n' ?e => apply (kn_le n n'); [exact (kns_index n l _ e H E)|subk]
    | H : Forall (over ?n) ?l, E : oindex ?l _ = Ok ?e |- over ?n' ?e => apply (kn_le n n'); [exact (kns_index n l _ e H E)|subk]
    end
  | simple apply kn_add | simple apply kn_sub | simple apply kn_scale | simple apply kn_neg | simple apply kn_zero
  | simple apply kn_one; knw | simple apply kn_const; knw | simple apply kn_bool; knw | simple apply kn_wire; knw ].
Ltac blw := repeat blw_step.
Global Hint Extern 1 (over _ _) => solve [blw] : tickdb.
Global Hint Extern 1 (overs _ _) => solve [blw] : tickdb.
Ltac t0s := first [eassumption | simple apply t0_assert_product | simple apply t0_wire | simple apply t0_binary_wire | simple apply t0_wires | solve [eauto with tickdb]].
Ltac t0b := eapply t0_bind; [solve [t0s]|]; cbv beta; intros ? ? ? ? ?.
Ltac t0r := simple apply t0_ret; intros ? ?; solve [blw|exact I].
Ltac t0u := eapply t0_weaken; [solve [t0s]|]; cbv beta; intros; exact I.
Ltac t0e := eapply t0_weaken; [solve [t0s]|]; cbv beta; intros; solve [blw].
Ltac dpf := match goal with
  | |- forall d, In d (_ ++ _) -> _ => apply deps_app; dpf
  | |- forall d, In d (flat_map e_deps _) -> _ => apply deps_kns; solve [blw]
  | |- forall d, In d (e_deps ?x) -> ?K d => change (over K x); solve [blw]
  end.
(** the generator of the wires asked for before *)
Ltac gen W := eapply t0_bind; [eapply t0_generator; [|apply W]|]; [dpf|cbv beta; intros ? ? ? ? ?].

Section Calls.
Context {F : Field}.

Lemma t0_assert_boolean n x : over n x -> t0 n (assert_boolean x) over.
Proof. intro. apply t0_pos. intro. unfold assert_boolean. t0b. t0r. Qed.
Lemma t0_assert_equal n x y : t0 n (assert_equal x y) (fun _ _ => True).
Proof. unfold assert_equal. t0s. Qed.
Hint Resolve t0_assert_boolean t0_assert_equal : tickdb.
Lemma t0_assert_zero n x : t0 n (assert_zero x) (fun _ _ => True).
Proof. unfold assert_zero. t0s. Qed.
Lemma t0_assert_true n x : t0 n (assert_true x) (fun _ _ => True).
Proof. unfold assert_true. t0s. Qed.
Lemma t0_assert_false n x : t0 n (assert_false x) (fun _ _ => True).
Proof. unfold assert_false. t0s. Qed.
Hint Resolve t0_assert_zero t0_assert_true t0_assert_false : tickdb.

Lemma t0_product n x y : over n x -> over n y -> t0 n (product x y) over.
Proof.
  intros Hx Hy. apply t0_pos. intro Hn. unfold product. destruct (e_as_constant x); [t0r|]. destruct (e_as_constant y); [t0r|].
  t0b. t0b. gen writes_product. t0r.
Qed.
Hint Resolve t0_product : tickdb.
Lemma t0_exponentiation n x p : over n x -> t0 n (exponentiation x p) over.
Proof.
  intro Hx. apply t0_pos. intro Hn. unfold exponentiation. eapply t0_bind.
  - apply (t0_bfold n _ _ (fun n' st => over n' (fst st) /\ over n' (snd st))).
    + intros n1 n2 [s1 s2] L [H1 H2]. cbn [fst snd] in *. split; blw.
    + intros n' [s1 s2] i P L _ [H1 H2]. cbn [fst snd] in *.
      eapply (t0_bind n' _ _ over); [destruct (i =? 0); [t0r|t0s]|]. cbv beta. intros n1 sq P1 L1 Hs.
      eapply (t0_bind n1 _ _ over); [destruct (el_bit p i); [t0s|t0r]|]. cbv beta. intros n2 pr P2 L2 Hp.
      apply t0_ret. intros. cbn [fst snd]. split; blw.
    + cbn [fst snd]. split; blw.
  - cbv beta. intros n' [s1 s2] P L [H1 H2]. cbn [fst snd] in *. t0r.
Qed.
Lemma t0_inverse n x : over n x -> t0 n (inverse x) over.
Proof.
  intros Hx. apply t0_pos. intro Hn. unfold inverse. t0b. t0b. gen writes_inverse. t0r.
Qed.
Hint Resolve t0_exponentiation t0_inverse : tickdb.
Lemma t0_assert_nonzero n x : over n x -> t0 n (assert_nonzero x) (fun _ _ => True).
Proof. intros. unfold assert_nonzero. t0b. t0r. Qed.
Hint Resolve t0_assert_nonzero : tickdb.
Lemma t0_assert_nonequal n x y : over n x -> over n y -> t0 n (assert_nonequal x y) (fun _ _ => True).
Proof. intros. unfold assert_nonequal. t0s. Qed.
Lemma t0_nonzero n x : over n x -> t0 n (nonzero x) over.
Proof.
  intros Hx. apply t0_pos. intro Hn. unfold nonzero. t0b. t0b. t0b. t0b. gen writes_nonzero. t0r.
Qed.
Hint Resolve t0_assert_nonequal t0_nonzero : tickdb.
Lemma t0_not n x : over n x -> t0 n (b_not x) over.
Proof. intro. apply t0_pos. intro. unfold b_not. t0r. Qed.
Lemma t0_and n x y : over n x -> over n y -> t0 n (b_and x y) over.
Proof. intros. unfold b_and. t0s. Qed.
Lemma t0_or n x y : over n x -> over n y -> t0 n (b_or x y) over.
Proof. intros. unfold b_or. t0b. t0r. Qed.
Lemma scale_u128_over P e c r : e_scale_u128 e c = Ok r -> over P e -> over P r.
Proof.
  unfold e_scale_u128. intros E H. destruct (omap _ e) as [l| |] eqn:O; try discriminate. inversion E; subst. clear E.
  assert (K : map fst l = map fst e).
  { clear H. revert l O. induction e as [|[k z] e IH]; intros l O; cbn [omap] in O; [inversion O; reflexivity|].
    cbn [fst snd] in O. destruct (fmul_u128 z c); cbn [obind] in O; try discriminate. destruct (omap _ e) as [t| |]; cbn [obind] in O; try discriminate.
    inversion O. cbn. f_equal. apply IH. reflexivity. }
  intros k Hk. apply H. unfold e_deps in *. rewrite <- K. unfold e_new in Hk. clear - Hk. apply in_map_iff in Hk. destruct Hk as ([k' z] & <- & Hk).
  apply filter_In in Hk. apply in_map. tauto.
Qed.
Lemma t0_xor n x y : over n x -> over n y -> t0 n (b_xor x y) over.
Proof.
  intros. unfold b_xor. t0b. eapply t0_bind; [apply (t0_lift _ _ over)|].
  - intros n2 r L E. apply (scale_u128_over _ _ _ _ E). fold (over n2 a). blw.
  - cbv beta. intros. t0r.
Qed.
Hint Resolve t0_not t0_and t0_or t0_xor : tickdb.
Lemma t0_zero n x : over n x -> t0 n (g_zero x) over.
Proof. intros. unfold g_zero. t0b. t0s. Qed.
Hint Resolve t0_zero : tickdb.
Lemma t0_equal n x y : over n x -> over n y -> t0 n (g_equal x y) over.
Proof. intros. unfold g_equal. t0s. Qed.
Lemma t0_selection n c x y : over n c -> over n x -> over n y -> t0 n (selection c x y) over.
Proof. intros. unfold selection. t0b. t0r. Qed.
Hint Resolve t0_equal t0_selection : tickdb.
Lemma t0_inverse_or_zero n x : over n x -> t0 n (inverse_or_zero x) over.
Proof.
  intros Hx. apply t0_pos. intro Hn. unfold inverse_or_zero. t0b. t0b. t0b. gen writes_inverse_or_zero. t0r.
Qed.
Lemma t0_quotient n x y : over n x -> over n y -> t0 n (quotient x y) over.
Proof. intros. unfold quotient. t0b. t0s. Qed.
Lemma t0_quotient_unsafe n x y : over n x -> over n y -> t0 n (quotient_unsafe x y) over.
Proof.
  intros Hx Hy. unfold quotient_unsafe. t0b. gen writes_quotient_unsafe. t0r.
Qed.
Hint Resolve t0_inverse_or_zero t0_quotient t0_quotient_unsafe : tickdb.

Lemma join_kn n x e : bin_join_allowing_overflow x = Ok e -> overs n x -> over n e.
Proof. exact (join_over n x e). Qed.
Lemma chunks_kn n c x es : (let! cs := bin_chunks x c in omap bin_join cs) = Ok es -> overs n x -> overs n es.
Proof. exact (chunks_over n c x es). Qed.
Lemma t0_lift_true {A} n (o : outcome A) : t0 n (blift o) (fun _ _ => True).
Proof. apply t0_lift. auto. Qed.
Lemma t0_split_without_range_check n x k : over n x -> t0 n (split_without_range_check x k) overs.
Proof.
  intro Hx. unfold split_without_range_check. t0b. rename a into ws. cbv zeta. eapply t0_bind; [apply t0_lift_true|]. cbv beta. intros n2 e P2 L2 _. t0b.
  match goal with H : length ws = k |- _ => rewrite <- H end. gen writes_split. apply t0_ret. intros n9 L9. unfold bin_of_wires. apply kns_wires. intros w Hw. knw.
Qed.
Hint Resolve t0_split_without_range_check : tickdb.
Lemma t0_split_allowing_ambiguity n x : over n x -> t0 n (split_allowing_ambiguity x) overs.
Proof. intros. unfold split_allowing_ambiguity. t0s. Qed.
Lemma t0_index n l i : overs n l -> t0 n (blift (oindex l i)) over.
Proof. intro H. apply t0_lift. intros n' e L E. blw. Qed.
Hint Resolve t0_index : tickdb.
Lemma t0_split_bounded n x k : over n x -> t0 n (split_bounded x k) overs.
Proof. intros. unfold split_bounded. eapply t0_bind; [apply t0_lift_true|]. cbv beta. intros. t0s. Qed.
Hint Resolve t0_split_allowing_ambiguity t0_split_bounded : tickdb.
Lemma t0_cmp_subtractive n d l s k : over n d -> t0 n (cmp_subtractive d l s k) over.
Proof.
  intros. unfold cmp_subtractive. eapply t0_bind; [apply t0_lift_true|]. cbv beta. intros n1 z P1 L1 _. cbv zeta.
  eapply t0_bind; [apply t0_split_bounded; destruct l; blw|]. cbv beta. intros. t0s.
Qed.
Hint Resolve t0_cmp_subtractive : tickdb.
Lemma t0_chunks_eq n c x : overs n x -> t0 n (blift (let! cs := bin_chunks x c in omap bin_join cs)) (fun n' es => overs n' es /\ (let! cs := bin_chunks x c in omap bin_join cs) = Ok es).
Proof.
  intro H. apply t0_lift. intros n' es L E. split; [|exact E]. apply (chunks_kn _ _ _ _ E). blw.
Qed.
Lemma bin_deps_kn n x : overs n x -> forall k, In k (bin_deps x) -> n k.
Proof.
  intros H k Hk. apply bin_deps_In in Hk; [|exact (fun _ => True)]. destruct Hk as (e & He & Hk). unfold overs in H. rewrite Forall_forall in H. exact (H e He k Hk).
Qed.
Lemma t0_cmp_binary n x y l s : overs n x -> overs n y -> t0 n (cmp_binary x y l s) over.
Proof.
  intros Hx Hy. unfold cmp_binary. eapply t0_bind; [apply t0_lift_true|]. cbv beta. intros n1 _ P1 L1 _. cbv zeta.
  eapply t0_bind; [apply (t0_chunks_eq n1); blw|]. cbv beta. intros n2 xc P2 L2 [Bx Ex].
  eapply t0_bind; [apply (t0_chunks_eq n2); blw|]. cbv beta. intros n3 yc P3 L3 [By Ey].
  eapply t0_bind; [apply t0_wires|]. cbv beta. intros n4 mask P4 L4 Lm.
  eapply t0_bind; [apply t0_bmap_unit; intros; eapply t0_weaken; [apply t0_boolean_of|]; auto|]. cbv beta. intros n5 u P5 L5 _.
  eapply t0_bind; [apply t0_boolean_of|]. cbv beta. intros n6 de P6 L6 ->.
  eapply t0_bind; [apply (t0_generator _ _ mask)|].
  { apply deps_app; apply bin_deps_kn; blw. }
  { apply writes_mask; intros i e E; [apply incl_appl|apply incl_appr]; eapply chunks_deps; eauto. }
  cbv beta. intros n7 u7 P7 L7 Hmask.
  assert (Bm : forall n' k, sub n7 n' -> In k mask -> over n' (e_wire k)).
  { intros n' k Ln Hk. apply kn_wire, Ln, Hmask, Hk. }
  assert (Hde : over n7 (e_sum_of_wires mask)) by (apply (over_sum_of_wires n7), Forall_forall, Hmask).
  eapply t0_bind; [apply (t0_bfold n7 _ _ over)|].
  { intros. blw. }
  { intros n' st i Pn Ln Hi Hs. t0b. t0b. eapply t0_bind; [apply (t0_lift _ _ (fun _ k => In k mask))|].
    { intros n'' k _ E. unfold oindex, ounwrap in E. destruct (nth_error mask i) eqn:N; [|discriminate]. inversion E; subst. exact (nth_error_In _ _ N). }
    cbv beta. intros n'' k Pk Lk Hk. pose proof (Bm n'' k ltac:(subk) Hk). t0b. t0r. }
  { blw. }
  cbv beta. intros n8 dc P8 L8 Hdc.
  eapply t0_bind; [apply (t0_lift _ _ (fun _ k => In k mask))|].
  { intros n'' k _ E. unfold oindex, ounwrap in E. destruct (nth_error mask 0) eqn:N; [|discriminate]. inversion E; subst. exact (nth_error_In _ _ N). }
  cbv beta. intros n9 m0 P9 L9 Hm0.
  eapply t0_bind; [apply (t0_bfold n9 _ _ over)|].
  { intros. blw. }
  { intros n' st i Pn Ln Hi Hs. t0b. t0b. t0b. eapply t0_bind; [apply (t0_lift _ _ (fun _ k => In k mask))|].
    { intros n'' k _ E. unfold oindex, ounwrap in E. destruct (nth_error mask i) eqn:N; [|discriminate]. inversion E; subst. exact (nth_error_In _ _ N). }
    cbv beta. intros n'' k Pk Lk Hk. pose proof (Bm n'' k ltac:(subk) Hk). t0r. }
  { apply Bm; [subk|exact Hm0]. }
  cbv beta. intros n10 ds P10 L10 Hds.
  eapply (t0_bind _ _ _ (fun _ _ => True)).
  { destruct s; [t0r|]. t0b. t0s. }
  cbv beta. intros n11 u11 P11 L11 _. refine (t0_cmp_subtractive _ _ _ _ _ _). blw.
Qed.
Hint Resolve t0_cmp_binary : tickdb.
Lemma t0_lt_binary n x y : overs n x -> overs n y -> t0 n (assert_lt_binary x y) (fun _ _ => True).
Proof. intros. unfold assert_lt_binary, lt_binary. t0b. t0s. Qed.
Lemma t0_le_binary n x y : overs n x -> overs n y -> t0 n (assert_le_binary x y) (fun _ _ => True).
Proof. intros. unfold assert_le_binary, le_binary. t0b. t0s. Qed.
Lemma t0_gt_binary n x y : overs n x -> overs n y -> t0 n (assert_gt_binary x y) (fun _ _ => True).
Proof. intros. unfold assert_gt_binary, gt_binary. t0b. t0s. Qed.
Lemma t0_ge_binary n x y : overs n x -> overs n y -> t0 n (assert_ge_binary x y) (fun _ _ => True).
Proof. intros. unfold assert_ge_binary, ge_binary. t0b. t0s. Qed.
Hint Resolve t0_lt_binary t0_le_binary t0_gt_binary t0_ge_binary : tickdb.
Lemma kns_from n z : n ONE -> overs n (bin_from z).
Proof. intro H. unfold bin_from. apply Forall_forall. intros e He. apply in_map_iff in He. destruct He as (i & <- & _). apply kn_bool, H. Qed.
Lemma t0_split n x : over n x -> t0 n (split x) overs.
Proof. intros. unfold split. t0b. pose proof (fun z => kns_from n' z ltac:(assumption)). t0b. t0r. Qed.
Hint Resolve t0_split : tickdb.
Lemma t0_cmp n x y l s : over n x -> over n y -> t0 n (cmp x y l s) over.
Proof. intros. unfold cmp. destruct l; t0b; t0b; t0s. Qed.
Hint Resolve t0_cmp : tickdb.
Lemma t0_lt n x y : over n x -> over n y -> t0 n (assert_lt x y) (fun _ _ => True).
Proof. intros. unfold assert_lt, lt. t0b. t0s. Qed.
Lemma t0_le n x y : over n x -> over n y -> t0 n (assert_le x y) (fun _ _ => True).
Proof. intros. unfold assert_le, le. t0b. t0s. Qed.
Lemma t0_gt n x y : over n x -> over n y -> t0 n (assert_gt x y) (fun _ _ => True).
Proof. intros. unfold assert_gt, gt. t0b. t0s. Qed.
Lemma t0_ge n x y : over n x -> over n y -> t0 n (assert_ge x y) (fun _ _ => True).
Proof. intros. unfold assert_ge, ge. t0b. t0s. Qed.
Hint Resolve t0_lt t0_le t0_gt t0_ge : tickdb.
(** The quotient and the remainder are set by a generator registered after the comparison of the remainder. *)
Lemma tk_modulus n x y : over n x -> over n y -> tk n 1 (modulus x y) over.
Proof.
  intros Hx Hy. apply late_close. unfold modulus. apply (late_bind n n 0 _ _ _ _ _ (tick_wire n 0)). cbv beta. intros n1 q O1 P1 L1 [Hq ->].
  apply (late_bind n n1 0 _ _ _ _ _ (tick_wire n1 0)). cbv beta. intros n2 r O2 P2 L2 [Hr ->].
  apply (late_call n n2 0 _ _ _ _ _ (t0_assert_product _ _ _ _)). cbv beta. intros n3 u P3 L3 _.
  apply (late_call n n3 0 _ _ _ (fun _ _ => True)); [assert (over n3 (e_wire r)) by blw; apply t0_lt; blw|]. cbv beta. intros n4 u4 P4 L4 _.
  apply (late_generator n n4 0 _ _ [q; r]); [dpf|apply writes_modulus|intros k Hk; cbn in *; tauto|]. intros n5 L5 H5. apply kn_wire, H5. cbn. auto.
Qed.
Lemma tk_divides n x y : over n x -> over n y -> tk n 1 (divides x y) over.
Proof. intros. unfold divides. apply (tk_bind n 1 _ _ over); [apply tk_modulus; blw|]. cbv beta. intros n1 r P1 L1 Hr. apply tk_0. refine (t0_zero _ _ _). blw. Qed.

Lemma t0_binary_summation n ts : Forall (overs n) ts -> t0 n (binary_summation ts) overs.
Proof.
  intro H. unfold binary_summation. cbv zeta. eapply t0_bind; [apply t0_lift_true|]. cbv beta. intros n1 _ P1 L1 _.
  t0b. rename a into ws. rename n' into n2.
  eapply t0_bind; [apply (t0_lift _ _ (fun n' js => overs n js))|].
  { intros n' js L E. clear - E H. revert js E. induction H as [|t ts Ht _ IH]; intros js E; cbn [omap] in E; [inversion E; constructor|].
    unfold bin_join at 1 in E. destruct (oassert _); cbn [obind] in E; try discriminate. destruct (bin_join_allowing_overflow t) as [e| |] eqn:J; cbn [obind] in E; try discriminate.
    destruct (omap bin_join ts) as [l| |]; cbn [obind] in E; try discriminate. inversion E; subst. constructor; [exact (join_over _ _ _ J Ht)|]. apply IH. reflexivity. }
  cbv beta. intros n3 js P3 L3 Hjs. pose proof (kn_sum n js Hjs) as Hs.
  eapply t0_bind; [apply t0_lift_true|]. cbv beta. intros n4 sj P4 L4 _. t0b. gen writes_summation. apply t0_ret. intros n9 L9. unfold bin_of_wires. apply kns_wires. intros w Hw. knw.
Qed.
Hint Resolve t0_binary_summation : tickdb.
Lemma kns_chunks n c x cs : bin_chunks x c = Ok cs -> overs n x -> Forall (overs n) cs.
Proof.
  unfold bin_chunks, chunks. destruct (c =? 0); [discriminate|]. intros E H. inversion E; subst. clear E. generalize (length x) as f. revert H. generalize x. clear.
  intros x H f. revert x H. induction f as [|f IH]; intros x H; cbn [chunks_fuel]; [constructor|]. destruct x as [|e x]; [constructor|].
  constructor; [apply kns_firstn, H|]. apply IH, kns_skipn, H.
Qed.
Lemma t0_binary_assert_zero n x : overs n x -> t0 n (binary_assert_zero x) (fun _ _ => True).
Proof.
  intro H. unfold binary_assert_zero. eapply t0_bind; [apply t0_lift_true|]. cbv beta. intros n1 k P1 L1 _.
  eapply t0_bind; [apply (t0_lift _ _ (fun n' cs => Forall (overs n) cs))|].
  { intros n' cs L E. exact (kns_chunks _ _ _ _ E H). }
  cbv beta. intros n2 cs P2 L2 Hcs. eapply t0_bind; [apply t0_bmap_unit|cbv beta; intros; t0r].
  intros n' c Pn Ln Hc. rewrite Forall_forall in Hcs. specialize (Hcs c Hc). eapply t0_bind; [apply (t0_lift _ _ over)|].
  { intros n'' e L E. unfold bin_join in E. destruct (oassert _); cbn [obind] in E; try discriminate. apply (join_kn _ _ _ E). blw. }
  cbv beta. intros. t0s.
Qed.
Hint Resolve t0_binary_assert_zero : tickdb.
Lemma t0_truncate n x k : overs n x -> t0 n (blift (bin_truncate x k)) overs.
Proof.
  intro H. apply t0_lift. intros n' r L E. unfold bin_truncate in E. destruct (oassert _); cbn [obind] in E; try discriminate. inversion E. apply kns_firstn. blw.
Qed.
Hint Resolve t0_truncate : tickdb.
Lemma t0_summation_ignoring_overflow n ts : Forall (overs n) ts -> t0 n (binary_summation_ignoring_overflow ts) overs.
Proof. intro. unfold binary_summation_ignoring_overflow. t0b. t0s. Qed.
Lemma t0_summation_asserting_no_overflow n ts : Forall (overs n) ts -> t0 n (binary_summation_asserting_no_overflow ts) overs.
Proof.
  intro. unfold binary_summation_asserting_no_overflow. t0b. eapply t0_bind; [apply (t0_lift _ _ overs)|].
  { intros n2 r L E. unfold oslice_from in E. destruct (oassert _); cbn [obind] in E; try discriminate. inversion E. apply kns_skipn. blw. }
  cbv beta. intros. t0b. t0s.
Qed.
Lemma In_kn n x e : overs n x -> In e x -> over n e.
Proof. intros H I. unfold overs in H. rewrite Forall_forall in H. auto. Qed.
Lemma kn_mono n1 n2 e : sub n1 n2 -> over n1 e -> over n2 e.
Proof. intros. blw. Qed.
Lemma t0_bmap_e {A} n (f : A -> B expr) l : (forall n' a, n' ONE -> sub n n' -> In a l -> t0 n' (f a) over) -> t0 n (bmap f l) overs.
Proof. apply t0_bmap. exact kn_mono. Qed.
Lemma t0_bitwise_not n x : overs n x -> t0 n (bitwise_not x) overs.
Proof. intro H. unfold bitwise_not. apply t0_bmap_e. intros n' e P L He. pose proof (In_kn _ _ _ H He). t0s. Qed.
Lemma t0_bitwise2 n op x y : (forall n a b, over n a -> over n b -> t0 n (op a b) over) -> overs n x -> overs n y -> t0 n (bitwise2 op x y) overs.
Proof.
  intros Ho Hx Hy. unfold bitwise2. eapply t0_bind; [apply t0_lift_true|]. cbv beta. intros n1 _ P1 L1 _. apply t0_bmap_e. intros n' i P L _. t0b. t0b. apply Ho; blw.
Qed.
Lemma t0_bitwise_and n x y : overs n x -> overs n y -> t0 n (bitwise_and x y) overs.
Proof. apply t0_bitwise2, t0_and. Qed.
Lemma t0_bitwise_or n x y : overs n x -> overs n y -> t0 n (bitwise_or x y) overs.
Proof. apply t0_bitwise2, t0_or. Qed.
Lemma t0_bitwise_xor n x y : overs n x -> overs n y -> t0 n (bitwise_xor x y) overs.
Proof. apply t0_bitwise2, t0_xor. Qed.
Lemma t0_rotate_inc n x k : overs n x -> t0 n (rotate_inc x k) overs.
Proof. intro. unfold rotate_inc. cbv zeta. apply t0_bmap_e. intros. eapply t0_bind; [apply t0_lift_true|]. cbv beta. intros. t0s. Qed.
Lemma t0_rotate_dec n x k : overs n x -> t0 n (rotate_dec x k) overs.
Proof. intro. unfold rotate_dec. cbv zeta. apply t0_bmap_e. intros. t0s. Qed.
Lemma t0_shift_inc n x k : overs n x -> t0 n (shift_inc x k) overs.
Proof. intro. unfold shift_inc. cbv zeta. apply t0_bmap_e. intros n' i P L _. destruct (i <? k); [t0r|t0s]. Qed.
Lemma t0_shift_dec n x k : overs n x -> t0 n (shift_dec x k) overs.
Proof. intro. unfold shift_dec. cbv zeta. apply t0_bmap_e. intros n' i P L _. eapply t0_bind; [apply t0_lift_true|]. cbv beta. intros n2 d P2 L2 _. destruct (i <? d); [t0s|t0r]. Qed.
Lemma t0_select_pairs b : forall k items n, length items < k -> over n b -> overs n items -> t0 n (select_pairs b items) overs.
Proof.
  induction k as [|k IH]; intros items n L Hb H; [lia|]. destruct items as [|x [|y l]]; cbn [select_pairs]; [apply t0_ret; constructor|t0r|]. cbn [length] in L.
  inversion H as [|? ? Hx H']; subst. inversion H' as [|? ? Hy Hl]; subst. t0b. eapply t0_bind; [apply IH; [lia|blw|blw]|]. cbv beta. intros n2 ss P2 L2 Hss.
  apply t0_ret. intros n3 L3. constructor; [blw|]. fold (overs n3 ss). blw.
Qed.
Lemma t0_random_access_binary bits : forall items n, overs n items -> overs n bits -> t0 n (random_access_binary items bits) over.
Proof.
  induction bits as [|b bits IH]; intros items n Hi Hb.
  - destruct items as [|x [|y l]]; cbn [random_access_binary]; try (apply t0_lift; discriminate). inversion Hi; subst.
    eapply t0_bind; [apply t0_lift_true|]. cbv beta. intros. t0r.
  - inversion Hb as [|? ? Hb1 Hb2]; subst. assert (G : t0 n (bbind (select_pairs b items) (fun parents => random_access_binary parents bits)) over).
    { eapply t0_bind; [apply (t0_select_pairs b (S (length items))); [lia|blw|blw]|]. cbv beta. intros n2 ps P2 L2 Hps. apply IH; blw. }
    destruct items as [|x [|y l]]; cbn [random_access_binary]; [exact G| |exact G]. inversion Hi; subst. eapply t0_bind; [apply t0_lift_true|]. cbv beta. intros. t0r.
Qed.
Lemma t0_random_access n items i : overs n items -> over n i -> t0 n (random_access items i) over.
Proof. intros. unfold random_access. t0b. apply t0_random_access_binary; blw. Qed.


(** ** Permutation networks: the generator of a layer of switches is registered after the generators of the network inside *)
Definition over_switch n (t : wire * expr * expr) : Prop := over n (snd (fst t)) /\ over n (snd t).
Lemma over_switch_le n n' t : over_switch n t -> sub n n' -> over_switch n' t.
Proof. intros [H1 H2] S. split; blw. Qed.
Lemma tick_boolean_wire n k : tick n k boolean_wire (fun n' w O => n' w /\ O = [w]).
Proof.
  apply tick_silent. intros b w b' E. inversion E; subst. split; [reflexivity|]. exists (fun d => n d \/ d = next b), [next b]. split; [intros d Hd; auto|].
  split; [intros d [Hd| ->]; cbn; auto|]. auto.
Qed.
Lemma tick_of {A} n k (m : B A) Q : tk n k m Q -> tick n k m (fun n' a O => O = [] /\ Q n' a).
Proof. exact (fun H => H). Qed.
Lemma tick_create_switch n x y : over n x -> over n y -> tick n 0 (create_switch x y) (fun n' t O => O = [fst (fst t)] /\ over_switch n' t).
Proof.
  intros. unfold create_switch. apply (tick_bind n 0 _ _ _ _ (tick_boolean_wire n 0)). cbv beta. intros n1 w O P1 L1 [Hw ->].
  apply (tick_bind n1 0 _ _ (fun n' a O => O = [] /\ over n' a)); [apply t0_selection; blw|]. cbv beta. intros n2 c O P2 L2 [-> Hc].
  eapply tick_weaken; [apply (tk_ret n2 0 _ (fun n' a => a = (w, c, e_sub (e_add x y) c) /\ over_switch n' a))|lia|].
  - intros n3 L3. split; [reflexivity|]. split; cbn [fst snd]; blw.
  - cbv beta. intros n3 a O L3 (-> & -> & H3). split; [reflexivity|exact H3].
Qed.
Lemma tick_switch_layer n l k : overs n l -> tick n 0 (switch_layer l k) (fun n' ts O => length ts = k /\ O = map (fun t => fst (fst t)) ts /\ Forall (over_switch n') ts).
Proof.
  intro Hl. unfold switch_layer.
  assert (G : forall is n0, sub n n0 -> tick n0 0 (bmap (fun i => x <- blift (oindex l (i * 2));; y <- blift (oindex l (i * 2 + 1));; create_switch x y) is)
    (fun n' ts O => length ts = length is /\ O = map (fun t => fst (fst t)) ts /\ Forall (over_switch n') ts)).
  { induction is as [|i is IH]; intros n0 L0; cbn [bmap].
    - eapply tick_weaken; [apply (tk_ret n0 0 _ (fun n' a => a = []))|lia|]; [reflexivity|]. cbv beta. intros n' a O _ [-> ->]. repeat split; auto.
    - apply (tick_bind n0 0 _ _ (fun n' t O => O = [fst (fst t)] /\ over_switch n' t)).
      + apply (tick_bind n0 0 _ _ (fun n' a O => O = [] /\ over n' a)); [apply t0_index; blw|]. cbv beta. intros n1 x O P1 L1 [-> Hx].
        apply (tick_bind n1 0 _ _ (fun n' a O => O = [] /\ over n' a)); [apply t0_index; blw|]. cbv beta. intros n2 y O P2 L2 [-> Hy].
        apply tick_create_switch; blw.
      + cbv beta. intros n1 t O P1 L1 [-> Ht].
        apply (tick_bind n1 0 _ _ (fun n' ts O => length ts = length is /\ O = map (fun t => fst (fst t)) ts /\ Forall (over_switch n') ts)); [apply IH; subk|].
        cbv beta. intros n2 ts O P2 L2 (Ln & -> & Hts).
        eapply tick_weaken; [apply (tk_ret n2 0 _ (fun n' a => a = t :: ts))|lia|]; [reflexivity|]. cbv beta. intros n3 a O L3 [-> ->]. cbn [length map app]. rewrite app_nil_r.
        split; [congruence|]. split; [reflexivity|]. constructor; [apply (over_switch_le n1); [exact Ht|subk]|]. eapply Forall_impl; [|exact Hts]. intros s Hs. exact (over_switch_le _ _ _ Hs L3). }
  eapply tick_weaken; [apply (G (seq 0 k)), sub_refl|lia|]. cbv beta. intros n' ts O _. rewrite seq_length. auto.
Qed.
Lemma tk_2x2 n a b c d : over n a -> over n b -> over n c -> over n d -> tk n 1 (assert_permutation_2x2 a b c d) (fun _ _ => True).
Proof.
  intros. apply late_close. unfold assert_permutation_2x2. eapply (late_bind n n 0); [apply tick_create_switch; blw|]. cbv beta. intros n1 [[w c'] d'] O P1 L1 [-> [H3 H4]]. cbn [fst snd] in *.
  apply (late_call n n1 0 _ _ _ _ _ (t0_assert_equal _ _ _)). cbv beta. intros n2 u P2 L2 _. apply (late_call n n2 0 _ _ _ _ _ (t0_assert_equal _ _ _)). cbv beta. intros n3 u' P3 L3 _.
  apply (late_generator_unit n n3 0 _ _ [w]); [dpf|apply writes_2x2|apply incl_refl].
Qed.
Lemma half_up k L : 2 <= k -> Nat.log2_up k = L -> exists L', L = S L' /\ forall j, j <= k - k / 2 -> Nat.log2_up j <= L'.
Proof.
  intros Hk E. pose proof (Nat.log2_up_pos k ltac:(lia)) as Lp. pose proof (Nat.log2_up_spec k ltac:(lia)) as [_ S]. rewrite E in *. destruct L as [|L']; [lia|].
  exists L'. split; [reflexivity|]. intros j Hj. destruct j as [|j]; [cbn; lia|]. apply Nat.log2_up_le_pow2; [lia|]. rewrite Nat.pow_succ_r' in S.
  pose proof (Nat.div_mod k 2 ltac:(lia)). pose proof (Nat.mod_upper_bound k 2 ltac:(lia)). lia.
Qed.
Lemma tk_net (Hord : (2 <= order)%Z) f n a b : (forall n a b, overs n a -> overs n b -> tk n (Nat.log2_up (length a)) (assert_permutation_fuel f a b) (fun _ _ => True)) -> 3 <= length a ->
  overs n a -> overs n b -> tk n (Nat.log2_up (length a)) (net f a b) (fun _ _ => True).
Proof.
  intros IH Ha Ba Bb. destruct (half_up (length a) _ ltac:(lia) eq_refl) as (L & -> & HL). apply late_close. unfold net. cbv zeta.
  eapply (late_bind n n L); [eapply tick_weaken; [apply tick_switch_layer, Ba|lia|intros ? ? ? _ HQ; exact HQ]|]. cbv beta. intros n1 las O1 P1 L1 (La & -> & RA).
  eapply (late_bind n n1 L); [eapply tick_weaken; [apply tick_switch_layer; blw|lia|intros ? ? ? _ HQ; exact HQ]|]. cbv beta. intros n2 lbs O2 P2 L2 (Lb & -> & RB).
  assert (Ba1 : overs n2 (map (fun s => snd (fst s)) las)) by (apply Forall_map; eapply Forall_impl; [|exact RA]; cbv beta; intros t (T & _); blw).
  assert (Ba2 : overs n2 (map snd las)) by (apply Forall_map; eapply Forall_impl; [|exact RA]; cbv beta; intros t (_ & T); blw).
  assert (Bb1 : overs n2 (map (fun s => snd (fst s)) lbs)) by (apply Forall_map; eapply Forall_impl; [|exact RB]; cbv beta; intros t (T & _); blw).
  assert (Bb2 : overs n2 (map snd lbs)) by (apply Forall_map; eapply Forall_impl; [|exact RB]; cbv beta; intros t (_ & T); blw).
  apply (late_call n n2 L _ _ _ (fun n' t => (overs n' (fst (fst (fst t))) /\ length (fst (fst (fst t))) <= length a - length a / 2) /\ overs n' (snd (fst (fst t))) /\
    (overs n' (snd (fst t)) /\ length (snd (fst t)) <= length a - length a / 2) /\ overs n' (snd t))).
  { apply tk_0. assert (H2 : length a / 2 <= length a - length a / 2) by (pose proof (Nat.div_mod (length a) 2 ltac:(lia)); lia).
    destruct (Nat.even (length a)) eqn:Ev; eapply (t0_bind _ _ _ over); try (apply t0_index; blw); cbv beta; intros n3 x P3 L3 Hx; eapply (t0_bind _ _ _ over); try (apply t0_index; blw);
      cbv beta; intros n4 y P4 L4 Hy; apply t0_ret; intros n5 L5; cbn [fst snd]; rewrite ?app_length, ?map_length, ?La; cbn [length];
      (split; [split; [blw|lia]|split; [try (apply kns_app); blw; constructor; blw; constructor|split; [split; [try (apply kns_app); blw; constructor; blw; constructor|]|try (apply kns_app); blw; constructor; blw; constructor]]]);
      try lia.
    rewrite <- Nat.negb_odd in Ev. apply Bool.negb_false_iff in Ev. rewrite Nat.odd_spec in Ev. destruct Ev as [j Ej]. rewrite Ej.
    replace (2 * j + 1) with (1 + j * 2) by lia. rewrite Nat.div_add by lia. change (1 / 2) with 0. lia. }
  cbv beta. intros n3 [[[c1a c1b] c2a] c2b] P3 L3 ((H1 & K1) & H2 & (H3 & K2) & H4). cbn [fst snd] in *.
  apply (late_call n n3 L _ _ _ (fun _ _ => True)).
  { eapply tk_weaken; [apply IH; blw|exact (HL _ K1)|auto]. }
  cbv beta. intros n3' _ P3' L3' _. apply (late_call n n3' L _ _ _ (fun _ _ => True)).
  { eapply tk_weaken; [apply IH; blw|exact (HL _ K2)|auto]. }
  cbv beta. intros n4 _ P4 L4 _.
  apply (late_generator_unit n n4 L _ _ (map (fun s => fst (fst s)) las ++ map (fun s => fst (fst s)) lbs)).
  - dpf.
  - apply writes_route; auto; rewrite map_length; [exact La|exact Lb].
  - rewrite app_nil_r. intros d Hd. apply in_app_or in Hd. apply in_or_app. tauto.
Qed.
Lemma tk_fuel (Hord : (2 <= order)%Z) : forall f n a b, overs n a -> overs n b -> tk n (Nat.log2_up (length a)) (assert_permutation_fuel f a b) (fun _ _ => True).
Proof.
  induction f as [|f IH]; intros n a b Ba Bb; [apply tk_lift; discriminate|].
  destruct (Nat.eq_dec (length a) (length b)) as [L|L]; [|intros _ s x s' E; rewrite (fuel_mismatch f a b L) in E; discriminate].
  destruct (Nat.le_gt_cases 3 (length a)) as [G|G].
  - rewrite (fuel_unfold f a b G L). apply (tk_bind n (Nat.log2_up (length a)) _ _ (fun _ _ => True)); [apply tk_lift; auto|]. cbv beta. intros n1 _ P1 L1 _. apply tk_net; [exact Hord|exact IH|lia|blw|blw].
  - destruct a as [|x1 [|x2 [|x3 a]]]; cbn [length] in G; try lia; destruct b as [|y1 [|y2 [|y3 b]]]; cbn [length] in L; try discriminate; cbn [assert_permutation_fuel length];
      [change (Nat.log2_up 0) with 0|change (Nat.log2_up 1) with 0|change (Nat.log2_up 2) with 1];
      (eapply (tk_bind n); [apply tk_0, t0_lift_true|]; cbv beta; intros n1 _ P1 L1 _); repeat match goal with H : overs _ (_ :: _) |- _ => inversion H; clear H; subst | H : Forall _ (_ :: _) |- _ => inversion H; clear H; subst end;
      [t0r|apply t0_assert_equal|apply tk_2x2; blw].
Qed.
Lemma tk_assert_permutation (Hord : (2 <= order)%Z) n a b : overs n a -> overs n b -> tk n (Nat.log2_up (length a)) (assert_permutation a b) (fun _ _ => True).
Proof. apply tk_fuel, Hord. Qed.

(** The sorted items are set by a generator registered after the network and the comparisons. *)
Lemma tk_sort_ascending (Hord : (2 <= order)%Z) n l : overs n l -> tk n (S (Nat.log2_up (length l))) (sort_ascending l) overs.
Proof.
  intro Hl. apply late_close. unfold sort_ascending. cbv zeta. set (L := Nat.log2_up (length l)). eapply (late_bind n n L); [apply tick_promise, tk_0, t0_wires|]. cbv beta. intros n1 ws O P1 L1 (Lw & -> & Hw).
  assert (Bw : overs n1 (map e_wire ws)) by (apply kns_wires, Hw).
  eapply (late_call n n1 L); [apply tk_assert_permutation; [exact Hord|blw|blw]|]. cbv beta. intros n2 _ P2 L2 _.
  eapply (late_call n n2 L); [apply tk_0; apply t0_lift_true|]. cbv beta. intros n3 k P3 L3 _.
  eapply (late_call n n3 L); [apply tk_0; apply (t0_bmap n3 _ _ overs)|].
  { intros. blw. }
  { intros n' e Pn Ln He. apply t0_split_allowing_ambiguity. assert (H : over n1 e) by (eapply In_kn; [apply kns_firstn, Bw|exact He]). blw. }
  cbv beta. intros n4 first P4 L4 Hf. eapply (late_call n n4 L); [apply tk_0; apply t0_index; blw|]. cbv beta. intros n5 lo P5 L5 Hlo.
  eapply (late_call n n5 L); [apply tk_0; apply t0_split; blw|]. cbv beta. intros n6 last P6 L6 Hlast.
  eapply (late_call n n6 L); [apply tk_0; apply t0_bmap_unit|].
  { intros n9 i Pn Ln _. assert (G : forall n' j, sub n6 n' -> t0 n' (blift (oindex (first ++ [last]) j)) overs).
    { intros n' j S. apply t0_lift. intros n'' x LL E. unfold oindex, ounwrap in E. destruct (nth_error (first ++ [last]) j) as [x'|] eqn:N; [|discriminate]. inversion E; subst.
      apply nth_error_In, in_app_or in N. destruct N as [N|[<-|[]]]; [|blw]. rewrite Forall_forall in Hf. specialize (Hf x N). blw. }
    eapply t0_bind; [apply G; subk|]. cbv beta. intros m1 x Q1 M1 Hx. eapply t0_bind; [apply G; subk|]. cbv beta. intros. t0s. }
  cbv beta. intros n7 _ P7 L7 _.
  apply (late_generator n n7 L _ _ ws); [dpf|apply writes_sort, Lw|rewrite app_nil_r; apply incl_refl|]. intros n8 L8 H8. apply kns_wires, H8.
Qed.
Lemma tk_sort_descending (Hord : (2 <= order)%Z) n l : overs n l -> tk n (S (Nat.log2_up (length l))) (sort_descending l) overs.
Proof.
  intro. unfold sort_descending. eapply (tk_bind n); [apply tk_sort_ascending; [exact Hord|blw]|]. cbv beta. intros n1 r P1 L1 Hr. apply tk_ret. intros n2 L2. apply Forall_rev. fold (overs n2 r). blw.
Qed.

(** The root is set by a generator registered after the powers of it. *)
Lemma tk_monomial_inverse n k x : over n x -> tk n 1 (monomial_inverse k x) over.
Proof.
  intro Hx. apply late_close. unfold monomial_inverse. apply (late_bind n n 0 _ _ _ _ _ (tick_wire n 0)). cbv beta. intros n1 r O1 P1 L1 [Hr ->].
  apply (late_call n n1 0 _ _ _ over); [apply t0_exponentiation; blw|]. cbv beta. intros n2 e P2 L2 He.
  apply (late_call n n2 0 _ _ _ _ _ (t0_assert_equal _ _ _)). cbv beta. intros n3 u P3 L3 _.
  apply (late_call n n3 0 _ _ _ _ _ (t0_lift_true _ _)). cbv beta. intros n4 y P4 L4 _.
  apply (late_generator n n4 0 _ _ [r]); [dpf|apply writes_root|apply incl_refl|]. intros n5 L5 H5. apply kn_wire, H5. cbn. auto.
Qed.
Lemma t0_monomial n k x : over n x -> t0 n (permute (monomial k) x) over.
Proof. cbn [permute p_inverse monomial]. apply t0_exponentiation. Qed.
Lemma t0_mimc_encrypt n cs k key x : over n key -> over n x -> t0 n (mimc_encrypt cs (monomial k) key x) over.
Proof.
  intros. unfold mimc_encrypt. cbn [permute p_inverse monomial]. t0b. eapply t0_bind; [apply (t0_bfold _ _ _ over)|cbv beta; intros; t0r].
  - exact kn_mono.
  - intros. t0s.
  - blw.
Qed.
Lemma tk_mimc_decrypt n cs k key x : over n key -> over n x -> tk n 1 (mimc_decrypt cs (monomial k) key x) over.
Proof.
  intros. unfold mimc_decrypt. cbn [permute p_inverse monomial]. eapply (tk_bind n 1).
  - apply (tk_bfold 1 _ _ over); [exact kn_mono| |blw].
    intros n' s c P L _ Hs. apply (tk_bind n' 1 _ _ over); [apply tk_monomial_inverse; blw|]. cbv beta. intros n1 r P1 L1 Hr. apply tk_0. t0r.
  - cbv beta. intros n1 c P1 L1 Hc. apply (tk_bind n1 1 _ _ over); [apply tk_monomial_inverse; blw|]. cbv beta. intros n2 r P2 L2 Hr. apply tk_0. t0r.
Qed.
Lemma tk_davies_meyer k c n x y : (forall n k' i, over n k' -> over n i -> tk n k (encrypt c k' i) over) -> over n x -> over n y -> tk n k (davies_meyer c x y) over.
Proof. intros H Hx Hy. unfold davies_meyer. eapply tk_bind; [apply H; blw|]. cbv beta. intros. apply tk_0. t0r. Qed.
Lemma tk_miyaguchi_preneel k c n x y : (forall n k' i, over n k' -> over n i -> tk n k (encrypt c k' i) over) -> over n x -> over n y -> tk n k (miyaguchi_preneel c x y) over.
Proof. intros H Hx Hy. unfold miyaguchi_preneel. eapply tk_bind; [apply H; blw|]. cbv beta. intros. apply tk_0. t0r. Qed.
Definition lag2 (k : nat) (m : compression) : Prop := forall n x y, over n x -> over n y -> tk n k (m x y) over.
Lemma tk_merkle_damgard k n iv m blocks : lag2 k m -> overs n blocks -> tk n k (merkle_damgard iv m blocks) over.
Proof.
  intros H Hb. apply tk_pos. intro Hn. unfold merkle_damgard. eapply tk_bind; [apply (tk_bfold k _ _ over)|].
  - exact kn_mono.
  - intros n' s a P L Ha Hs. pose proof (In_kn _ _ _ Hb Ha). apply H; blw.
  - blw.
  - cbv beta. intros n1 c P1 L1 Hc. eapply (tk_bind n1 k); [apply tk_0, (t0_lift _ _ over)|].
    { intros n' e L E. unfold e_from_uint in E. destruct (el_from _); cbn [obind] in E; try discriminate. inversion E. blw. }
    cbv beta. intros n2 e P2 L2 He. apply H; blw.
Qed.
Lemma tk_merkle_tree_root k n m leaf path : lag2 k m -> over n leaf -> overs n (prefix path) -> overs n (siblings path) -> tk n k (merkle_tree_root m leaf path) over.
Proof.
  intros H Hl Hp Hs. unfold merkle_tree_root, merkle_tree_step. apply (tk_bfold k _ _ over); [exact kn_mono| |exact Hl].
  intros n' c [b s] P L Hi Hc. cbn [fst snd]. pose proof (In_kn _ _ _ Hp (in_combine_l _ _ _ _ Hi)). pose proof (In_kn _ _ _ Hs (in_combine_r _ _ _ _ Hi)).
  apply (tk_bind n' k _ _ over); [apply tk_0, t0_selection; blw|]. cbv beta. intros n1 l P1 L1 Hll. apply H; blw.
Qed.
Lemma tk_assert_membership k n m leaf root path : lag2 k m -> over n leaf -> over n root -> overs n (prefix path) -> overs n (siblings path) ->
  tk n k (assert_merkle_tree_membership m leaf root path) (fun _ _ => True).
Proof. intros. unfold assert_merkle_tree_membership. eapply tk_bind; [apply tk_merkle_tree_root; eassumption|]. cbv beta. intros. apply tk_0, t0_assert_equal. Qed.
Definition lagl (k : nat) (m : list expr -> B (list expr)) : Prop := forall n xs, overs n xs -> tk n k (m xs) overs.
Definition kn_pair n (p : list expr * list expr) : Prop := overs n (fst p) /\ overs n (snd p).
Lemma tk_sponge_step k n sp i c : lagl k (mp_permute (sp_perm sp)) -> overs n i -> overs n c -> tk n k (sponge_step sp i c) kn_pair.
Proof.
  intros M Hi Hc. unfold sponge_step. cbv zeta. eapply tk_bind; [apply M, kns_app; blw|]. cbv beta. intros n1 ns P1 L1 Hs.
  eapply tk_bind; [apply tk_0, t0_lift_true|]. cbv beta. intros n2 _ P2 L2 _. eapply tk_bind; [apply tk_0, t0_lift_true|]. cbv beta. intros n3 _ P3 L3 _.
  apply tk_ret. intros. split; cbn [fst snd]; [apply kns_firstn|apply kns_skipn]; blw.
Qed.
Lemma tk_sponge_squeeze k sp len : lagl k (mp_permute (sp_perm sp)) -> forall fuel n i c o, overs n i -> overs n c -> overs n o ->
  tk n k (sponge_squeeze fuel sp i c o len) overs.
Proof.
  intros M fuel. induction fuel as [|f IH]; intros n i c o Hi Hc Ho; cbn [sponge_squeeze]; destruct (length o <? len); try (apply tk_ret; intros; blw); [apply tk_lift; discriminate|].
  eapply tk_bind; [apply tk_sponge_step; [exact M|blw|blw]|]. cbv beta. intros n1 [i' c'] P1 L1 [Hi' Hc']. cbn [fst snd] in *.
  apply IH; [blw|blw|apply kns_app; blw].
Qed.
Lemma sponge_add_kn n sec : forall chunk res, sponge_add sec chunk = Ok res -> overs n sec -> overs n chunk -> overs n res.
Proof.
  induction sec as [|e sec IH]; intros [|c chunk] res E H1 H2; cbn [sponge_add] in E; try discriminate; try (inversion E; subst; exact H1).
  destruct (sponge_add sec chunk) as [r| |] eqn:R; cbn [obind] in E; try discriminate. inversion E; subst. inversion H1; subst. inversion H2; subst.
  constructor; [blw|]. exact (IH _ _ R ltac:(assumption) ltac:(assumption)).
Qed.
Lemma kns_repeat n k : overs n (repeat e_zero k).
Proof. induction k; cbn; constructor; auto using kn_zero. Qed.
Lemma tk_sponge k n sp inputs len : lagl k (mp_permute (sp_perm sp)) -> overs n inputs -> tk n k (sponge_evaluate sp inputs len) overs.
Proof.
  intros M Hi. unfold sponge_evaluate. eapply tk_bind; [apply tk_0, (t0_lift _ _ (fun _ cs => Forall (overs n) cs))|].
  { intros n' cs L E. exact (kns_chunks n (bitrate sp) inputs cs E Hi). }
  cbv beta. intros n1 cs P1 L1 Hcs. eapply tk_bind; [apply (tk_bfold k _ _ kn_pair)|].
  - intros m1 m2 [i c] L [H1 H2]. split; cbn [fst snd] in *; blw.
  - intros n' [i c] ch P L Hch [H1 H2]. cbn [fst snd] in *. rewrite Forall_forall in Hcs. specialize (Hcs ch Hch). eapply tk_bind; [apply tk_0, (t0_lift _ _ overs)|].
    { intros n'' r L' E. apply (sponge_add_kn _ _ _ _ E); blw. }
    cbv beta. intros n2 r P2 L2 Hr'. apply tk_sponge_step; [exact M|blw|blw].
  - split; cbn [fst snd]; apply kns_repeat.
  - cbv beta. intros n2 [i c] P2 L2 [H1 H2]. cbn [fst snd] in *. eapply tk_bind; [apply tk_sponge_squeeze; [exact M|blw|blw|blw]|]. cbv beta. intros n3 o P3 L3 Ho.
    apply tk_ret. intros. apply kns_firstn. blw.
Qed.
Lemma t0_sbox n sb x : over n x -> t0 n (sbox_permute sb x) over.
Proof.
  intro H. unfold sbox_permute, sbox_to_permutation. destruct sb.
  1,2: destruct (el_from _) as [e| |]; cbn [obind]; try (intros _ b a b' E; discriminate E);
    destruct (monomial_new e) as [k| |]; cbn [obind]; try (intros _ b a b' E; discriminate E); exact (t0_monomial n k x H).
  exact (t0_inverse_or_zero n x H).
Qed.
Lemma kns_matrix n rows xs : overs n xs -> overs n (matrix_mul rows xs).
Proof.
  intro H. unfold matrix_mul. apply Forall_forall. intros e He. apply in_map_iff in He. destruct He as ([r v] & <- & Hi). cbn [fst snd].
  pose proof (In_kn _ _ _ H (in_combine_r _ _ _ _ Hi)) as Hv. assert (G : forall z, over n z -> over n (fold_left (fun sum c => e_add sum (e_scale v c)) r z)).
  { clear - Hv. induction r as [|c r IH]; intros z Hz; cbn [fold_left]; [exact Hz|]. apply IH. blw. }
  apply G. blw.
Qed.
Lemma t0_poseidon n p xs : overs n xs -> t0 n (poseidon_permute p xs) overs.
Proof.
  intro H. unfold poseidon_permute. eapply t0_bind; [apply t0_lift_true|]. cbv beta. intros n1 _ P1 L1 _. eapply t0_bind; [apply t0_lift_true|]. cbv beta. intros n2 _ P2 L2 _.
  apply (t0_bfold _ _ _ overs); [intros; blw| |blw]. intros n' st r P L _ Hst. eapply (t0_bind _ _ _ overs).
  - destruct (poseidon_full_round p r).
    + apply t0_bmap_e. intros n3 e P3 L3 He. apply t0_sbox. pose proof (In_kn _ _ _ Hst He). blw.
    + destruct st as [|e es]; cbn [update_first]; [apply t0_lift; discriminate|]. inversion Hst; subst. eapply t0_bind; [apply t0_sbox; eassumption|]. cbv beta. intros n3 e' P3 L3 He'.
      apply t0_ret. intros n4 L4. constructor; [blw|]. assert (overs n' es) by assumption. fold (overs n4 es). blw.
  - cbv beta. intros n3 s P3 L3 Hs. apply t0_ret. intros. apply kns_matrix. blw.
Qed.
Lemma tk_rescue n r xs : overs n xs -> tk n 1 (rescue_permute r xs) overs.
Proof.
  intro H. unfold rescue_permute, rescue_pi1, rescue_pi2. cbn [permute p_inverse monomial].
  apply (tk_bfold 1 _ _ overs); [intros; blw| |blw]. intros n' st i P L _ Hst. apply (tk_bind _ 1 _ _ overs).
  - apply tk_0, t0_bmap_e. intros n4 e P4 L4 He. pose proof (In_kn _ _ _ Hst He). eapply t0_bind; [apply t0_lift_true|]. cbv beta. intros. t0s.
  - cbv beta. intros n3 c1 P3 L3 Hc1. pose proof (kns_matrix n3 (res_mds r) c1 Hc1) as Hm. apply (tk_bind _ 1 _ _ overs).
    + apply tk_bmap; [exact kn_mono|]. intros n4 e P4 L4 He. pose proof (In_kn _ _ _ Hm He). eapply tk_bind; [apply tk_0, t0_lift_true|]. cbv beta. intros. apply tk_monomial_inverse. blw.
    + cbv beta. intros n4 c2 P4 L4 Hc2. apply tk_ret. intros. apply kns_matrix. blw.
Qed.
Definition kn_e n (p : expr * expr) : Prop := over n (fst p) /\ over n (snd p).
Lemma kn_e_mono n1 n2 p : sub n1 n2 -> kn_e n1 p -> kn_e n2 p.
Proof. intros L [H1 H2]. split; blw. Qed.
Lemma t0_ed_expr_new n C x y : over n x -> over n y -> t0 n (ed_expr_new C x y) kn_e.
Proof. intros. apply t0_pos. intro. unfold ed_expr_new. t0b. t0b. t0b. t0b. apply t0_ret. intros. split; cbn [fst snd ed_new_unsafe]; blw. Qed.
Lemma t0_ed_add n C l r : kn_e n l -> kn_e n r -> t0 n (ed_add_expressions C l r) kn_e.
Proof.
  destruct l as [x1 y1], r as [x2 y2]. intros [H1 H2] [H3 H4]. cbn [fst snd] in *. unfold ed_add_expressions.
  t0b. t0b. t0b. t0b. t0b. t0b. t0b. apply t0_ret. intros. split; cbn [fst snd ed_new_unsafe]; blw.
Qed.
Lemma t0_ed_double n C p : kn_e n p -> t0 n (ed_double_expression C p) kn_e.
Proof.
  destruct p as [x y]. intros [H1 H2]. cbn [fst snd] in *. unfold ed_double_expression.
  t0b. t0b. t0b. eapply t0_bind; [apply t0_lift_true|]. cbv beta. intros. t0b. eapply t0_bind; [apply (t0_lift _ _ over)|].
  { intros n9 e L E. unfold e_from_uint in E. destruct (el_from _); cbn [obind] in E; try discriminate. inversion E. blw. }
  cbv beta. intros. t0b. apply t0_ret. intros. split; cbn [fst snd ed_new_unsafe]; blw.
Qed.
Lemma t0_ed_identity n C : t0 n (blift (identity_expression (edwards_group C))) kn_e.
Proof.
  apply t0_pos. intro Hn. apply t0_lift. intros n' e L E. unfold identity_expression in E. destruct (identity_element (edwards_group C)) as [p| |]; cbn [obind] in E; try discriminate.
  inversion E. cbn [g_of_elem edwards_group ed_of_point]. unfold ed_of_point. split; cbn [fst snd]; blw.
Qed.
Lemma t0_mul_boolean n C p b : kn_e n p -> over n b -> t0 n (mul_boolean_expression (edwards_group C) p b) kn_e.
Proof.
  intros [H1 H2] Hb. unfold mul_boolean_expression. eapply t0_bind; [apply t0_ed_identity|]. cbv beta. intros n1 id P1 L1 [I1 I2].
  cbn [to_components edwards_group from_components_unsafe] in *. eapply (t0_bind _ _ _ overs).
  - apply t0_bmap_e. intros n2 [i e] P2 L2 Hi. cbn [fst snd]. apply in_combine_r in Hi. eapply t0_bind; [apply (t0_lift _ _ over)|].
    { intros n3 c L3 E. unfold ounwrap in E. destruct (nth_error [fst id; snd id] i) as [c'|] eqn:N; [|discriminate]. inversion E; subst. apply nth_error_In in N.
      destruct N as [<-|[<-|[]]]; blw. }
    cbv beta. intros n3 c P3 L3 Hc. assert (over n e) by (destruct Hi as [<-|[<-|[]]]; assumption). t0s.
  - cbv beta. intros n2 r P2 L2 Hr. apply t0_lift. intros n3 e L3 E. destruct r as [|x [|y r]]; try discriminate. inversion E. inversion Hr as [|? ? Hx Hr']; subst. inversion Hr'; subst.
    split; cbn [fst snd ed_new_unsafe]; blw.
Qed.
Lemma t0_mul_scalar n C p e : kn_e n p -> over n e -> t0 n (mul_scalar_expression (edwards_group C) p e) kn_e.
Proof.
  intros Hp He. unfold mul_scalar_expression. t0b. rename a into bits. eapply t0_bind; [apply t0_ed_identity|]. cbv beta. intros n2 id P2 L2 Hid.
  eapply t0_bind; [apply (t0_bfold _ _ _ (fun n st => kn_e n (fst st) /\ kn_e n (snd st)))|].
  - intros n3 n4 [s c] L [Q1 Q2]. cbn [fst snd] in *. split; eapply kn_e_mono; eassumption.
  - intros n3 [s c] b P3 L3 Hb [Q1 Q2]. cbn [fst snd] in *. assert (Bb : over n3 b) by (pose proof (In_kn _ _ _ H1 Hb); blw).
    eapply t0_bind; [apply t0_mul_boolean; eassumption|]. cbv beta. intros n4 bp P4 L4 Hbp.
    eapply t0_bind; [exact (t0_ed_add n4 C _ _ (kn_e_mono _ _ _ L4 Q1) Hbp)|]. cbv beta. intros n5 sm P5 L5 Hsm.
    eapply t0_bind; [exact (t0_ed_double n5 C _ (kn_e_mono n3 n5 c (sub_trans _ _ _ L4 L5) Q2))|]. cbv beta. intros n6 cu P6 L6 Hcu.
    apply t0_ret. intros n7 L7. cbn [fst snd]. split; eapply kn_e_mono; [|eassumption| |eassumption]; subk.
  - cbn [fst snd]. split; [exact Hid|]. eapply kn_e_mono; [|exact Hp]. subk.
  - cbv beta. intros n3 [s c] P3 L3 [Q1 Q2]. cbn [fst snd] in *. apply t0_ret. intros. eapply kn_e_mono; eassumption.
Qed.
Lemma tk_schnorr k n C gen sg msg pk (m : compression) : lag2 k m -> kn_e n sg -> over n msg -> kn_e n pk ->
  tk n k (schnorr_verify (mkCyclic (edwards_group C) gen) sg msg pk m) (fun _ _ => True).
Proof.
  intros H [S1 S2] Hm Hpk. apply tk_pos. intro Hn. unfold schnorr_verify. cbn [cg_group]. eapply (tk_bind n k); [apply tk_0; apply (t0_lift _ _ kn_e)|].
  { intros n1 e L E. unfold generator_expression in E. cbn [generator_element cg_group] in E. destruct gen as [p| |]; cbn [obind] in E; try discriminate.
    inversion E. cbn [g_of_elem edwards_group]. unfold ed_of_point. split; cbn [fst snd]; blw. }
  cbv beta. intros n1 g P1 L1 Hg. eapply (tk_bind n1 k); [apply tk_0; apply t0_mul_scalar; [exact Hg|blw]|]. cbv beta. intros n2 gs P2 L2 Hgs.
  eapply (tk_bind n2 k); [apply tk_0; apply t0_mul_scalar; [eapply kn_e_mono; [|exact Hpk]; subk|blw]|]. cbv beta. intros n3 ye P3 L3 Hye.
  eapply (tk_bind n3 k); [apply tk_0; exact (t0_ed_add n3 C _ _ (kn_e_mono _ _ _ L3 Hgs) Hye)|]. cbv beta. intros n4 r P4 L4 [R1 R2]. cbn [compressed edwards_group].
  eapply (tk_bind n4 k); [apply H; blw|]. cbv beta. intros. apply tk_0, t0_assert_equal.
Qed.

End Calls.
