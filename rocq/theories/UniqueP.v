(** Which calls leave no freedom: two satisfying assignments that give the arguments the same values give all new wires the same values. *)
From Coq Require Import ZArith List Bool Arith Lia Znumtheory.
From Verif Require Import Base FieldM FieldP ExprM BuilderM GadgetsM CryptoM CurveM Spec SpecCrypto ExprP BitsP MonoP LocalP SoundP CmpP GadgetSoundP
  HonestP CryptoP MatrixP SpongeP EdwardsP.
Import ListNotations.
Open Scope Z_scope.

Section Unique.
Context {F : Field} (Hp : prime order) (w1 w2 : witness) (Hw1 : wf_witness w1) (Hw2 : wf_witness w2).
Let Hord : 2 <= order := prime_ge2 Hp.

Definition same (e : expr) : Prop := ev w1 e = ev w2 e.
Definition sames (l : list expr) : Prop := Forall same l.

(** [U]: wires on which the assignments may still differ. *)
Definition pin {A} (U : list nat) (m : B A) (Q : A -> list nat -> Prop) : Prop := forall b a b', m b = Ok (a, b') -> sat w1 b' -> sat w2 b' ->
  exists U', Q a U' /\ forall k, In k U \/ (next b <= k < next b')%nat -> In k U' \/ w1 k = w2 k.
Definition fixed {A} (m : B A) (Q : A -> Prop) : Prop := pin [] m (fun a U => U = [] /\ Q a).

Lemma pin_ret {A} U (a : A) (Q : A -> list nat -> Prop) : Q a U -> pin U (bret a) Q.
Proof. intros H b x b' E _ _. inversion E; subst. exists U. split; [exact H|]. intros k [I|I]; [auto|lia]. Qed.
Lemma pin_lift {A} U (o : outcome A) (Q : A -> list nat -> Prop) : (forall a, o = Ok a -> Q a U) -> pin U (blift o) Q.
Proof. intros H b x b' E _ _. unfold blift in E. destruct o as [a| |]; inversion E; subst. exists U. split; [auto|]. intros k [I|I]; [auto|lia]. Qed.
(** What the rest of the construction forces may be used already. *)
Lemma pin_bind_later {A C} U (m : B A) (k : A -> B C) Q Q' (P1 P2 : A -> Prop) : pin U m Q -> (forall a, mono (k a)) ->
  (forall a, sound w1 (k a) (fun _ => P1 a)) -> (forall a, sound w2 (k a) (fun _ => P2 a)) ->
  (forall a U', P1 a -> P2 a -> Q a U' -> pin U' (k a) Q') -> pin U (bbind m k) Q'.
Proof.
  intros H HM S1 S2 H' b c b' E T1 T2. unfold bbind in E. destruct (m b) as [[a b1]| |] eqn:E1; try discriminate.
  pose proof (HM a b1 c b' E) as X.
  destruct (H b a b1 E1 (sat_extends _ _ _ X T1) (sat_extends _ _ _ X T2)) as (U1 & HQ & HU).
  destruct (H' a U1 (S1 a b1 c b' E T1) (S2 a b1 c b' E T2) HQ b1 c b' E T1 T2) as (U2 & HQ2 & HU2). exists U2. split; [exact HQ2|].
  intros j Hj. destruct (Nat.lt_ge_cases j (next b1)) as [L|L].
  - destruct (HU j) as [I|I]; [|apply HU2; auto|auto]. destruct Hj as [Hj|Hj]; [auto|right; lia].
  - destruct Hj as [Hj|Hj]; [|apply HU2; right; lia]. destruct (HU j (or_introl Hj)) as [I|I]; [apply HU2; auto|auto].
Qed.
Lemma pin_bind {A C} U (m : B A) (k : A -> B C) Q Q' : pin U m Q -> (forall a, mono (k a)) -> (forall a U', Q a U' -> pin U' (k a) Q') -> pin U (bbind m k) Q'.
Proof.
  intros H HM H'. eapply (pin_bind_later U m k Q Q' (fun _ => True) (fun _ => True)); [exact H|exact HM|intro; apply sound_true|intro; apply sound_true|].
  intros a U' _ _. apply H'.
Qed.
Lemma pin_resolve {A} U (m : B A) (Q Q' : A -> list nat -> Prop) : pin U m Q ->
  (forall a U', Q a U' -> exists U'', Q' a U'' /\ forall k, In k U' -> In k U'' \/ w1 k = w2 k) -> pin U m Q'.
Proof.
  intros H R b a b' E T1 T2. destruct (H b a b' E T1 T2) as (U1 & HQ & HU). destruct (R a U1 HQ) as (U2 & HQ2 & HU2). exists U2. split; [exact HQ2|].
  intros k Hk. destruct (HU k Hk) as [I|I]; auto.
Qed.
Lemma pin_weaken {A} U (m : B A) (Q Q' : A -> list nat -> Prop) : pin U m Q -> (forall a U', Q a U' -> Q' a U') -> pin U m Q'.
Proof. intros H W. eapply pin_resolve; [exact H|]. intros a U' HQ. exists U'. auto. Qed.
Lemma pin_sound {A} U (m : B A) Q P1 P2 : pin U m Q -> sound w1 m P1 -> sound w2 m P2 -> pin U m (fun a U' => Q a U' /\ P1 a /\ P2 a).
Proof. intros H S1 S2 b a b' E T1 T2. destruct (H b a b' E T1 T2) as (U1 & HQ & HU). exists U1. split; [|exact HU]. split; [exact HQ|]. split; [eapply S1|eapply S2]; eauto. Qed.
Lemma pin_start {A} U V (m : B A) Q : (forall k, In k U -> In k V \/ w1 k = w2 k) -> pin V m Q -> pin U m Q.
Proof.
  intros R H b a b' E T1 T2. destruct (H b a b' E T1 T2) as (U1 & HQ & HU). exists U1. split; [exact HQ|]. intros k [I|I]; [|auto].
  destruct (R k I) as [J|J]; auto.
Qed.
Lemma pin_fixed {A} U (m : B A) Q : fixed m Q -> pin U m (fun a U' => U' = U /\ Q a).
Proof.
  intros H b a b' E T1 T2. destruct (H b a b' E T1 T2) as (U1 & [-> HQ] & HU). exists U. split; [auto|]. intros k [I|I]; [auto|].
  destruct (HU k (or_intror I)) as [[]|]; auto.
Qed.
Lemma pin_ext {A} U (m m' : B A) Q : (forall b, m b = m' b) -> pin U m' Q -> pin U m Q.
Proof. intros X H b a b' E. rewrite X in E. exact (H b a b' E). Qed.
Lemma pin_wire U : pin U b_wire (fun w U' => U' = w :: U).
Proof.
  intros b a b' E _ _. inversion E; subst. cbn [next]. exists (next b :: U). split; [reflexivity|]. intros k [I|I]; left; [right; exact I|left; lia].
Qed.
Lemma pin_generator U d r : pin U (b_generator d r) (fun _ U' => U' = U).
Proof. intros b a b' E _ _. inversion E; subst. cbn [next]. exists U. split; [reflexivity|]. intros k [I|I]; [auto|lia]. Qed.
Lemma pin_assert_product U x y z : pin U (assert_product x y z) (fun _ U' => U' = U).
Proof. intros b a b' E _ _. inversion E; subst. cbn [next]. exists U. split; [reflexivity|]. intros k [I|I]; [auto|lia]. Qed.

Lemma fixed_ret {A} (a : A) (Q : A -> Prop) : Q a -> fixed (bret a) Q.
Proof. intro H. apply pin_ret. auto. Qed.
Lemma fixed_lift {A} (o : outcome A) (Q : A -> Prop) : (forall a, o = Ok a -> Q a) -> fixed (blift o) Q.
Proof. intro H. apply pin_lift. auto. Qed.
Lemma fixed_bind {A C} (m : B A) (k : A -> B C) Q Q' : fixed m Q -> (forall a, mono (k a)) -> (forall a, Q a -> fixed (k a) Q') -> fixed (bbind m k) Q'.
Proof. intros H HM H'. eapply pin_bind; [exact H|exact HM|]. cbv beta. intros a U [-> HQ]. apply H', HQ. Qed.
Lemma fixed_weaken {A} (m : B A) (Q Q' : A -> Prop) : fixed m Q -> (forall a, Q a -> Q' a) -> fixed m Q'.
Proof. intros H W. eapply pin_weaken; [exact H|]. cbv beta. intros a U [-> HQ]. auto. Qed.
Lemma fixed_sound {A} (m : B A) Q P1 P2 : fixed m Q -> sound w1 m P1 -> sound w2 m P2 -> fixed m (fun a => Q a /\ P1 a /\ P2 a).
Proof. intros H S1 S2. eapply pin_weaken; [apply (pin_sound _ _ _ _ _ H S1 S2)|]. cbv beta. tauto. Qed.
Lemma fixed_product0 x y z : fixed (assert_product x y z) (fun _ => True).
Proof. eapply pin_weaken; [apply pin_assert_product|]. cbv beta. auto. Qed.
Lemma fixed_generator d r : fixed (b_generator d r) (fun _ => True).
Proof. eapply pin_weaken; [apply pin_generator|]. cbv beta. auto. Qed.
Lemma fixed_bfold {A S} (f : S -> A -> B S) (I : S -> Prop) l : (forall s a, mono (f s a)) ->
  (forall s a, In a l -> I s -> fixed (f s a) I) -> forall s, I s -> fixed (bfold f l s) I.
Proof.
  intro HM. induction l as [|a l IH]; intros H s Hs; cbn [bfold]; [apply fixed_ret, Hs|].
  eapply fixed_bind; [apply H; [left; reflexivity|exact Hs]|intro; apply mono_bfold, HM|]. intros s' Hs'. apply IH; [|exact Hs']. intros; apply H; [right|]; assumption.
Qed.
Lemma fixed_bmap {A C} (f : A -> B C) (I : C -> Prop) l : (forall a, mono (f a)) ->
  (forall a, In a l -> fixed (f a) I) -> fixed (bmap f l) (fun cs => Forall I cs).
Proof.
  intro HM. induction l as [|a l IH]; intro H; cbn [bmap]; [apply fixed_ret; constructor|].
  eapply fixed_bind; [apply H; left; reflexivity|intro; apply mono_bind; [apply mono_bmap, HM|intro; apply mono_ret]|]. intros c Hc. cbv beta.
  eapply fixed_bind; [apply IH; intros; apply H; right; assumption|intro; apply mono_ret|]. intros cs Hcs. apply fixed_ret. constructor; assumption.
Qed.

Local Tactic Notation "fbind" tactic(t) := eapply fixed_bind; [ solve [t] | intro; mono | cbv beta ].

(** expressions *)
Lemma same_zero : same e_zero.
Proof. unfold same. rewrite !(ev_zero Hord). reflexivity. Qed.
Lemma same_one : same e_one.
Proof. unfold same. rewrite (ev_one Hord), (ev_one Hord) by (apply Hw1 || apply Hw2). reflexivity. Qed.
Lemma same_const c : same (e_const c).
Proof.
  unfold same. apply ev_ext. intros k Hk. enough (k = ONE) as -> by (destruct Hw1 as [-> _], Hw2 as [-> _]; reflexivity).
  pose proof (over_const (fun k => k = ONE) c eq_refl) as O. exact (O k Hk).
Qed.
Lemma same_bool c : same (e_bool c).
Proof. destruct c; [apply same_one|apply same_zero]. Qed.
Lemma same_add x y : same x -> same y -> same (e_add x y).
Proof. unfold same. intros A1 A2. rewrite !(ev_add Hord), A1, A2. reflexivity. Qed.
Lemma same_sub x y : same x -> same y -> same (e_sub x y).
Proof. unfold same. intros A1 A2. rewrite !(ev_sub Hord), A1, A2. reflexivity. Qed.
Lemma same_neg x : same x -> same (e_neg x).
Proof. unfold same. intros A1. rewrite !(ev_neg Hord), A1. reflexivity. Qed.
Lemma same_scale x c : same x -> same (e_scale x c).
Proof. unfold same. intros A1. rewrite !(ev_scale Hord), A1. reflexivity. Qed.
Lemma same_wire k : same (e_wire k) <-> w1 k = w2 k.
Proof. unfold same. rewrite (ev_wire_ Hp w1 Hw1), (ev_wire_ Hp w2 Hw2). tauto. Qed.
Lemma sames_map l : sames l -> map (ev w1) l = map (ev w2) l.
Proof. intro H. apply map_ext_in. unfold sames in H. rewrite Forall_forall in H. exact H. Qed.
Lemma sames_wires ws : sames (map e_wire ws) <-> forall k, In k ws -> w1 k = w2 k.
Proof. unfold sames. rewrite Forall_map, Forall_forall. split; intros H k Hk; apply same_wire, H, Hk. Qed.
Lemma same_sum l : sames l -> same (e_sum l).
Proof. intro H. unfold same. rewrite !(ev_sum Hord). f_equal. induction H as [|e l He _ IH]; cbn [fold_right]; [reflexivity|]. rewrite He, IH. reflexivity. Qed.
Lemma sames_index l i e : sames l -> oindex l i = Ok e -> same e.
Proof.
  unfold oindex, ounwrap. intros H E. destruct (nth_error l i) as [e'|] eqn:N; [|discriminate]. inversion E; subst. apply nth_error_In in N.
  unfold sames in H. rewrite Forall_forall in H. apply H, N.
Qed.
Lemma same_join l e : bin_join l = Ok e -> sames l -> same e.
Proof. intros E H. destruct (bin_join_inv Hord l e E) as (_ & _ & V & _). unfold same. rewrite !V. unfold bin_val. rewrite (sames_map l H). reflexivity. Qed.
Lemma same_joins ls es : omap bin_join ls = Ok es -> Forall sames ls -> sames es.
Proof.
  intros E H. apply omap_Forall2 in E. induction E as [|l e ls es Ee _ IH]; [constructor|]. inversion H; subst. constructor; [eapply same_join; eauto|apply IH; assumption].
Qed.

(** ** fields and bits *)
Lemma fixed_assert_boolean x : same x -> fixed (assert_boolean x) same.
Proof. intro H. unfold assert_boolean. fbind (apply fixed_product0). intros _ _. apply fixed_ret, H. Qed.
Lemma fixed_assert_equal x y : fixed (assert_equal x y) (fun _ => True).
Proof. apply fixed_product0. Qed.
Lemma bits_same ws : bin_ok w1 (bin_of_wires ws) -> bin_ok w2 (bin_of_wires ws) -> bin_val w1 (bin_of_wires ws) = bin_val w2 (bin_of_wires ws) ->
  forall k, In k ws -> w1 k = w2 k.
Proof.
  unfold bin_ok, bin_val, bin_of_wires. intros B1 B2 E. apply sames_wires. apply bits_val_inj in E; [|rewrite !map_length; reflexivity| |].
  - revert E. clear. unfold sames. induction (map e_wire ws) as [|e l IH]; cbn [map]; intro E; constructor; [injection E as E _; exact E|apply IH; injection E as _ E; exact E].
  - rewrite Forall_map. exact B1.
  - rewrite Forall_map. exact B2.
Qed.
Lemma fixed_product x y : same x -> same y -> fixed (product x y) same.
Proof.
  intros Hx Hy. eapply pin_resolve.
  - eapply pin_sound; [|apply (snd_product Hp w1 Hw1)|apply (snd_product Hp w2 Hw2)].
    instantiate (1 := fun r U => U = [] \/ exists k, r = e_wire k /\ U = [k]). unfold product.
    destruct (e_as_constant x); [apply pin_ret; auto|]. destruct (e_as_constant y); [apply pin_ret; auto|].
    eapply pin_bind; [apply pin_wire|intro; mono|]. cbv beta. intros k U ->. eapply pin_bind; [apply pin_assert_product|intro; mono|]. cbv beta. intros _ U ->.
    eapply pin_bind; [apply pin_generator|intro; mono|]. cbv beta. intros _ U ->. apply pin_ret. right. eauto.
  - cbv beta. intros r U ([->|(k & -> & ->)] & E1 & E2); (exists []; split; [split; [reflexivity|unfold same in *; congruence]|]).
    + auto.
    + intros j [<-|[]]. right. apply same_wire. unfold same in *. congruence.
Qed.
Lemma inverse_unique a r s : infield r -> infield s -> (a * r) mod order = 1 -> (a * s) mod order = 1 -> r = s.
Proof.
  intros Ir Is E1 E2. rewrite <- (Z.mod_small r order) by exact Ir. rewrite <- (Z.mod_small s order) by exact Is.
  transitivity ((r * ((a * s) mod order)) mod order); [rewrite E2, Z.mul_1_r; reflexivity|]. rewrite Zmult_mod_idemp_r.
  transitivity ((s * ((a * r) mod order)) mod order); [|rewrite E1, Z.mul_1_r; reflexivity]. rewrite Zmult_mod_idemp_r. f_equal. ring.
Qed.
Lemma fixed_inverse x : same x -> fixed (inverse x) same.
Proof.
  intros Hx. eapply pin_resolve.
  - eapply pin_sound; [|apply (snd_inverse Hp w1 Hw1)|apply (snd_inverse Hp w2 Hw2)].
    instantiate (1 := fun r U => exists k, r = e_wire k /\ U = [k]). unfold inverse.
    eapply pin_bind; [apply pin_wire|intro; mono|]. cbv beta. intros k U ->. eapply pin_bind; [apply pin_assert_product|intro; mono|]. cbv beta. intros _ U ->.
    eapply pin_bind; [apply pin_generator|intro; mono|]. cbv beta. intros _ U ->. apply pin_ret. eauto.
  - cbv beta. intros r U ((k & -> & ->) & [E1 _] & [E2 _]). assert (S : same (e_wire k)).
    { unfold same. rewrite Hx in E1. eapply inverse_unique; [apply ev_infield, Hord|apply ev_infield, Hord|exact E1|exact E2]. }
    exists []. split; [auto|]. intros j [<-|[]]. right. apply same_wire, S.
Qed.
Lemma fixed_assert_nonzero x : same x -> fixed (assert_nonzero x) (fun _ => True).
Proof. intro H. unfold assert_nonzero. fbind (apply fixed_inverse, H). intros _ _. apply fixed_ret. exact I. Qed.
Lemma fixed_assert_nonequal x y : same x -> same y -> fixed (assert_nonequal x y) (fun _ => True).
Proof. intros Hx Hy. apply fixed_assert_nonzero, same_sub; assumption. Qed.
Lemma fixed_quotient x y : same x -> same y -> fixed (quotient x y) same.
Proof. intros Hx Hy. unfold quotient. fbind (apply fixed_inverse, Hy). intros i Hi. apply fixed_product; assumption. Qed.
Lemma fixed_exponentiation x p : same x -> fixed (exponentiation x p) same.
Proof.
  intro Hx. unfold exponentiation. eapply fixed_bind with (Q := fun st : expr * expr => same (fst st) /\ same (snd st)); [|intro; mono|].
  - apply fixed_bfold; [intros; mono| |split; [apply same_one|apply same_zero]]. intros st i _ [H1 H2].
    eapply fixed_bind with (Q := same); [destruct (i =? 0)%nat; [apply fixed_ret, Hx|apply fixed_product; assumption]|intro; mono|]. intros sq Hs.
    eapply fixed_bind with (Q := same); [destruct (el_bit p i); [apply fixed_product; assumption|apply fixed_ret, H1]|intro; mono|]. intros pr Hpr.
    apply fixed_ret. split; assumption.
  - intros st [H1 _]. apply fixed_ret, H1.
Qed.
Lemma fixed_not x : same x -> fixed (b_not x) same.
Proof. intro H. apply fixed_ret, same_sub; [apply same_one|exact H]. Qed.
Lemma fixed_or x y : same x -> same y -> fixed (b_or x y) same.
Proof. intros Hx Hy. unfold b_or. fbind (apply fixed_product; assumption). intros p H. apply fixed_ret, same_sub; [apply same_add; assumption|exact H]. Qed.
Lemma same_scale_u128 x n e : 0 <= n -> same x -> e_scale_u128 x n = Ok e -> same e.
Proof.
  intros Hn H E. destruct (Z.ltb_spec n order) as [L|L].
  - rewrite e_scale_u128_spec in E by (exact Hord || (split; assumption)). injection E as <-. apply same_scale, H.
  - unfold e_scale_u128 in E. destruct x as [|kv x]; cbn [omap obind] in E; [injection E as <-; apply same_zero|].
    unfold fmul_u128, el_from in E. destruct (Z.ltb_spec n order); [lia|]. cbn [obind] in E. discriminate.
Qed.
Lemma fixed_xor x y : same x -> same y -> fixed (b_xor x y) same.
Proof.
  intros Hx Hy. unfold b_xor. fbind (apply fixed_product; assumption). intros p H.
  eapply fixed_bind with (Q := same); [apply fixed_lift; intros e; apply same_scale_u128; [lia|exact H]|intro; mono|]. intros e He.
  apply fixed_ret, same_sub; [apply same_add; assumption|exact He].
Qed.
Lemma fixed_selection c x y : same c -> same x -> same y -> fixed (selection c x y) same.
Proof.
  intros Hc Hx Hy. unfold selection. fbind (apply fixed_product; [exact Hc|apply same_sub; assumption]). intros p H. apply fixed_ret, same_add; assumption.
Qed.

(** ** words *)
Lemma pin_boolean_wire U : pin U boolean_wire (fun w U' => U' = w :: U).
Proof.
  unfold boolean_wire. eapply pin_bind; [apply pin_wire|intro; mono|]. cbv beta. intros k V ->. unfold assert_boolean.
  eapply pin_bind with (Q := fun _ V => V = k :: U); [|intro; mono|cbv beta; intros _ V ->; apply pin_ret; reflexivity].
  eapply pin_bind; [apply pin_assert_product|intro; mono|]. cbv beta. intros _ V ->. apply pin_ret. reflexivity.
Qed.
Lemma pin_bmap_wires {A} (f : A -> B wire) l : (forall a U, pin U (f a) (fun w U' => U' = w :: U)) -> (forall a, mono (f a)) ->
  forall U, pin U (bmap f l) (fun ws U' => forall k, In k U' -> In k ws \/ In k U).
Proof.
  intros H HM. induction l as [|a l IH]; intro U; cbn [bmap]; [apply pin_ret; auto|].
  eapply pin_bind; [apply H|intro; apply mono_bind; [apply mono_bmap, HM|intro; apply mono_ret]|]. cbv beta. intros k V ->.
  eapply pin_bind; [apply IH|intro; apply mono_ret|]. cbv beta. intros ws V HV. apply pin_ret. intros j Hj. destruct (HV j Hj) as [I|[I|I]]; cbn; auto.
Qed.
Lemma pin_swrc U x n : pin U (split_without_range_check x n) (fun r U' => exists ws, r = bin_of_wires ws /\ forall k, In k U' -> In k ws \/ In k U).
Proof.
  unfold split_without_range_check. eapply pin_bind; [apply pin_bmap_wires; [intros; apply pin_boolean_wire|intro; mono]|intro; mono|]. cbv beta. intros ws V HV. cbv zeta.
  eapply pin_bind; [apply pin_lift with (Q := fun _ V' => V' = V); reflexivity|intro; mono|]. cbv beta. intros e W ->.
  eapply pin_bind; [apply pin_assert_product|intro; mono|]. cbv beta. intros _ W ->. eapply pin_bind; [apply pin_generator|intro; mono|]. cbv beta. intros _ W ->.
  apply pin_ret. eauto.
Qed.
Lemma fixed_split_bounded x n : same x -> fixed (split_bounded x n) sames.
Proof.
  intro Hx. eapply pin_resolve.
  - eapply pin_sound; [|apply (snd_split_bounded Hp w1 Hw1)|apply (snd_split_bounded Hp w2 Hw2)].
    unfold split_bounded. eapply pin_bind; [apply pin_lift with (Q := fun _ V => V = []); reflexivity|intro; mono|]. cbv beta. intros _ U ->. apply pin_swrc.
  - cbv beta. intros r U ((ws & -> & HU) & (_ & _ & B1 & V1) & (_ & _ & B2 & V2)). unfold same in Hx.
    assert (E : forall k, In k ws -> w1 k = w2 k) by (apply bits_same; [exact B1|exact B2|congruence]).
    exists []. split; [split; [reflexivity|apply sames_wires, E]|]. intros k Hk. right. destruct (HU k Hk) as [I|[]]. apply E, I.
Qed.
Lemma fixed_binary_summation ts : Forall sames ts -> Forall (bin_ok w1) ts -> Forall (bin_ok w2) ts -> fixed (binary_summation ts) sames.
Proof.
  intros Ht K1 K2. eapply pin_resolve.
  - eapply pin_sound; [|apply (snd_binary_summation Hp w1 Hw1); exact K1|apply (snd_binary_summation Hp w2 Hw2); exact K2].
    instantiate (1 := fun r U => exists ws, r = bin_of_wires ws /\ forall k, In k U -> In k ws). unfold binary_summation. cbv zeta.
    eapply pin_bind; [apply pin_lift with (Q := fun _ V => V = []); reflexivity|intro; mono|]. cbv beta. intros _ U ->.
    eapply pin_bind; [apply pin_bmap_wires; [intros; apply pin_boolean_wire|intro; mono]|intro; mono|]. cbv beta. intros ws V HV.
    eapply pin_bind; [apply pin_lift with (Q := fun _ V' => V' = V); reflexivity|intro; mono|]. cbv beta. intros js W ->.
    eapply pin_bind; [apply pin_lift with (Q := fun _ V' => V' = V); reflexivity|intro; mono|]. cbv beta. intros sj W ->.
    eapply pin_bind; [apply pin_assert_product|intro; mono|]. cbv beta. intros _ W ->. eapply pin_bind; [apply pin_generator|intro; mono|]. cbv beta. intros _ W ->.
    apply pin_ret. exists ws. split; [reflexivity|]. intros k Hk. destruct (HV k Hk) as [I|[]]. exact I.
  - cbv beta. intros r U ((ws & -> & HU) & (_ & _ & B1 & V1) & (_ & _ & B2 & V2)).
    assert (ES : sum_vals w1 ts = sum_vals w2 ts).
    { clear - Ht. unfold sum_vals. induction Ht as [|t ts H _ IH]; cbn [fold_right]; [reflexivity|]. unfold bin_val at 1 3. rewrite (sames_map t H), IH. reflexivity. }
    assert (E : forall k, In k ws -> w1 k = w2 k) by (apply bits_same; [exact B1|exact B2|congruence]).
    exists []. split; [split; [reflexivity|apply sames_wires, E]|]. intros k Hk. right. apply E, HU, Hk.
Qed.
Lemma sames_firstn n l : sames l -> sames (firstn n l).
Proof. unfold sames. revert n. induction l; destruct n; intro H; cbn; try constructor; inversion H; auto. Qed.
Lemma sames_skipn n l : sames l -> sames (skipn n l).
Proof. unfold sames. revert n. induction l; destruct n; intro H; cbn; auto. inversion H; auto. Qed.
Lemma sames_truncate x n r : bin_truncate x n = Ok r -> sames x -> sames r.
Proof. unfold bin_truncate, oassert. destruct (_ <=? _)%nat; cbn [obind]; [|discriminate]. intro E. injection E as <-. apply sames_firstn. Qed.
Lemma sames_slice l n r : oslice_from l n = Ok r -> sames l -> sames r.
Proof. unfold oslice_from, oassert. destruct (_ <=? _)%nat; cbn [obind]; [|discriminate]. intro E. injection E as <-. apply sames_skipn. Qed.
Lemma fixed_bs_ignoring ts : Forall sames ts -> Forall (bin_ok w1) ts -> Forall (bin_ok w2) ts -> fixed (binary_summation_ignoring_overflow ts) sames.
Proof.
  intros Ht K1 K2. unfold binary_summation_ignoring_overflow. fbind (apply fixed_binary_summation; assumption). intros s Hs. apply fixed_lift. intros r E. eapply sames_truncate; eauto.
Qed.
Lemma fixed_binary_assert_zero x : fixed (binary_assert_zero x) (fun _ => True).
Proof.
  unfold binary_assert_zero. fbind (apply fixed_lift with (Q := fun _ => True); auto). intros n _. fbind (apply fixed_lift with (Q := fun _ => True); auto). intros cs _.
  eapply fixed_bind; [apply fixed_bmap with (I := fun _ => True); [intro; mono|]|intro; mono|].
  - intros c _. fbind (apply fixed_lift with (Q := fun _ => True); auto). intros j _. apply fixed_assert_equal.
  - intros _ _. apply fixed_ret. exact I.
Qed.
Lemma fixed_bs_asserting ts : Forall sames ts -> Forall (bin_ok w1) ts -> Forall (bin_ok w2) ts -> fixed (binary_summation_asserting_no_overflow ts) sames.
Proof.
  intros Ht K1 K2. unfold binary_summation_asserting_no_overflow. fbind (apply fixed_binary_summation; assumption). intros s Hs.
  fbind (apply fixed_lift with (Q := fun _ => True); auto). intros c _. fbind (apply fixed_binary_assert_zero). intros _ _. apply fixed_lift. intros r E. eapply sames_truncate; eauto.
Qed.
Lemma fixed_bitwise_not x : sames x -> fixed (bitwise_not x) sames.
Proof. intro H. apply fixed_bmap; [intro; mono|]. intros a Ha. apply fixed_not. unfold sames in H. rewrite Forall_forall in H. apply H, Ha. Qed.
Lemma fixed_bitwise2 op x y : (forall a b, mono (op a b)) -> (forall a b, same a -> same b -> fixed (op a b) same) -> sames x -> sames y -> fixed (bitwise2 op x y) sames.
Proof.
  intros HM Hop Hx Hy. unfold bitwise2. eapply fixed_bind with (Q := fun _ => True); [apply fixed_lift; auto|intro; apply mono_bmap; intro; mono; apply HM|]. intros _ _.
  apply fixed_bmap; [intro; mono; apply HM|]. intros i _. eapply fixed_bind with (Q := same); [apply fixed_lift; intros e; apply sames_index, Hx|intro; mono; apply HM|].
  intros a Ha. eapply fixed_bind with (Q := same); [apply fixed_lift; intros e; apply sames_index, Hy|intro; apply HM|]. intros b Hb. apply Hop; assumption.
Qed.
Lemma fixed_select_pairs l : same l -> forall n items, (length items <= n)%nat -> sames items -> fixed (select_pairs l items) sames.
Proof.
  intros Hl n. induction n as [|n IH]; intros [|a [|b rest]] L H; cbn [length select_pairs] in *; try lia; try (apply fixed_ret; exact H).
  inversion H as [|? ? Ha H']; subst. inversion H' as [|? ? Hb H'']; subst. fbind (apply fixed_selection; assumption). intros s Hs.
  fbind (apply IH; [lia|exact H'']). intros ss Hss. apply fixed_ret. constructor; assumption.
Qed.
Lemma fixed_rab bits : sames bits -> forall items, sames items -> fixed (random_access_binary items bits) same.
Proof.
  induction 1 as [|l bits Hl _ IH]; intros items H.
  - destruct items as [|x [|y items]]; cbn [random_access_binary]; try (apply fixed_lift; discriminate).
    fbind (apply fixed_lift with (Q := fun _ => True); auto). intros _ _. apply fixed_ret. inversion H; assumption.
  - destruct items as [|x [|y items]]; cbn [random_access_binary].
    + fbind (eapply fixed_select_pairs; eauto). intros ps Hps. apply IH, Hps.
    + fbind (apply fixed_lift with (Q := fun _ => True); auto). intros _ _. apply fixed_ret. inversion H; assumption.
    + eapply fixed_bind; [eapply fixed_select_pairs; eauto|intro; mono|]. intros ps Hps. apply IH, Hps.
Qed.
Lemma fixed_random_access items i : sames items -> same i -> fixed (random_access items i) same.
Proof. intros H Hi. unfold random_access. fbind (apply fixed_split_bounded, Hi). intros bits Hb. apply fixed_rab; assumption. Qed.

(** ** permutations, ciphers, hashes *)
Lemma fixed_monomial_inverse n x : 1 <= n < order -> Z.gcd (order - 1) n = 1 -> same x -> fixed (monomial_inverse n x) same.
Proof.
  intros Hn Hg Hx. unfold monomial_inverse.
  eapply (pin_bind_later [] _ _ _ _ (fun r => (w1 r ^ n) mod order = ev w1 x) (fun r => (w2 r ^ n) mod order = ev w2 x)); [apply pin_wire|intro; mono| | |].
  - intro r. sbind (apply (snd_exponentiation Hp); [exact Hw1|lia]). intros e He. sbind (apply (snd_assert_equal Hp); exact Hw1). intros _ Ee.
    sbind (apply sound_true). intros ? _. sbind (apply sound_true). intros _ _. apply sound_ret. rewrite <- Ee, He, (ev_wire_ Hp) by exact Hw1. reflexivity.
  - intro r. sbind (apply (snd_exponentiation Hp); [exact Hw2|lia]). intros e He. sbind (apply (snd_assert_equal Hp); exact Hw2). intros _ Ee.
    sbind (apply sound_true). intros ? _. sbind (apply sound_true). intros _ _. apply sound_ret. rewrite <- Ee, He, (ev_wire_ Hp) by exact Hw2. reflexivity.
  - cbv beta. intros r U E1 E2 ->. assert (Er : w1 r = w2 r).
  { apply (pow_inj_gcd Hp n); [exact Hn|exact Hg|apply Hw1|apply Hw2|]. unfold same in Hx. congruence. }
  apply (pin_start [r] []); [intros k [<-|[]]; right; exact Er|].
  fbind (apply fixed_exponentiation, same_wire, Er). intros e _. fbind (apply fixed_assert_equal). intros _ _.
  fbind (apply fixed_lift with (Q := fun _ => True); auto). intros k _. fbind (apply fixed_generator). intros _ _. apply fixed_ret, same_wire, Er.
Qed.
Definition rigid1 (m : expr -> B expr) : Prop := (forall x, mono (m x)) /\ forall x, same x -> fixed (m x) same.
Definition rigid2 (m : expr -> expr -> B expr) : Prop := (forall x y, mono (m x y)) /\ forall x y, same x -> same y -> fixed (m x y) same.
Definition rigidl (m : list expr -> B (list expr)) : Prop := (forall xs, mono (m xs)) /\ forall xs, sames xs -> fixed (m xs) sames.
Lemma rigid_monomial n : 1 <= n < order -> Z.gcd (order - 1) n = 1 -> rigid1 (permute (monomial n)) /\ rigid1 (p_inverse (monomial n)).
Proof.
  intros Hn Hg. split; (split; [intro; mono|intros x Hx; cbn [permute p_inverse monomial]]).
  - apply fixed_exponentiation, Hx.
  - apply fixed_monomial_inverse; assumption.
Qed.
Lemma rigid_mimc_encrypt cs r : rigid1 (permute r) -> rigid2 (mimc_encrypt cs r).
Proof.
  intros [M R]. split.
  - intros k x. unfold mimc_encrypt. apply mono_bind; [apply M|intro]. apply mono_bind; [apply mono_bfold; intros; apply M|intro; apply mono_ret].
  - intros k x Hk Hx. unfold mimc_encrypt. eapply fixed_bind; [apply R, same_add; assumption|intro; apply mono_bind; [apply mono_bfold; intros; apply M|intro; apply mono_ret]|].
    intros c Hc. eapply fixed_bind; [apply fixed_bfold with (I := same); [intros; apply M| |exact Hc]|intro; apply mono_ret|].
    + intros s a _ Hs. apply R, same_add; [exact Hs|]. apply same_add; [exact Hk|apply same_const].
    + intros d Hd. apply fixed_ret, same_add; assumption.
Qed.
Lemma rigid_mimc_decrypt cs r : rigid1 (p_inverse r) -> rigid2 (mimc_decrypt cs r).
Proof.
  intros [M R]. split.
  - intros k x. unfold mimc_decrypt. apply mono_bind; [apply mono_bfold; intros; apply mono_bind; [apply M|intro; apply mono_ret]|intro]. apply mono_bind; [apply M|intro; apply mono_ret].
  - intros k x Hk Hx. unfold mimc_decrypt. eapply fixed_bind; [apply fixed_bfold with (I := same)|intro; apply mono_bind; [apply M|intro; apply mono_ret]|].
    + intros. apply mono_bind; [apply M|intro; apply mono_ret].
    + intros s a _ Hs. eapply fixed_bind; [apply R, Hs|intro; apply mono_ret|]. intros d Hd. apply fixed_ret, same_sub; [exact Hd|]. apply same_add; [exact Hk|apply same_const].
    + apply same_sub; assumption.
    + intros d Hd. eapply fixed_bind; [apply R, Hd|intro; apply mono_ret|]. intros e He. apply fixed_ret, same_sub; assumption.
Qed.
Lemma rigid_davies_meyer c : rigid2 (encrypt c) -> rigid2 (davies_meyer c).
Proof.
  intros [M R]. split; [intros; unfold davies_meyer; apply mono_bind; [apply M|intro; apply mono_ret]|]. intros x y Hx Hy. unfold davies_meyer.
  eapply fixed_bind; [apply R; assumption|intro; apply mono_ret|]. intros e He. apply fixed_ret, same_add; assumption.
Qed.
Lemma rigid_miyaguchi_preneel c : rigid2 (encrypt c) -> rigid2 (miyaguchi_preneel c).
Proof.
  intros [M R]. split; [intros; unfold miyaguchi_preneel; apply mono_bind; [apply M|intro; apply mono_ret]|]. intros x y Hx Hy. unfold miyaguchi_preneel.
  eapply fixed_bind; [apply R; assumption|intro; apply mono_ret|]. intros e He. apply fixed_ret. repeat apply same_add; assumption.
Qed.
Lemma fixed_merkle_damgard m iv blocks : rigid2 m -> sames blocks -> fixed (merkle_damgard iv m blocks) same.
Proof.
  intros [M R] H. unfold merkle_damgard. eapply fixed_bind; [apply fixed_bfold with (I := same); [intros; apply M| |apply same_const]|intro; mono; apply M|].
  - intros s a Ha Hs. apply R; [exact Hs|]. unfold sames in H. rewrite Forall_forall in H. apply H, Ha.
  - intros c Hc. eapply fixed_bind with (Q := same); [apply fixed_lift|intro; apply M|].
    + intros e E. unfold e_from_uint in E. destruct (el_from _) as [z| |]; cbn [obind] in E; try discriminate. injection E as <-. apply same_const.
    + intros e He. apply R; assumption.
Qed.
Lemma fixed_merkle_root m leaf p : rigid2 m -> same leaf -> sames (prefix p) -> sames (siblings p) -> fixed (merkle_tree_root m leaf p) same.
Proof.
  intros [M R] Hl Hb Hs. unfold merkle_tree_root, merkle_tree_step. apply fixed_bfold; [intros; mono; apply M| |exact Hl].
  intros c [bit sib] I Hc. cbn [fst snd]. pose proof (in_combine_l _ _ _ _ I) as I1. pose proof (in_combine_r _ _ _ _ I) as I2.
  unfold sames in *. rewrite Forall_forall in Hb, Hs. specialize (Hb _ I1). specialize (Hs _ I2).
  eapply fixed_bind; [apply fixed_selection; assumption|intro; apply M|]. intros l Hleft. apply R; [exact Hleft|]. apply same_sub; [apply same_add; assumption|exact Hleft].
Qed.
Lemma fixed_merkle_membership m leaf root p : rigid2 m -> same leaf -> sames (prefix p) -> sames (siblings p) -> fixed (assert_merkle_tree_membership m leaf root p) (fun _ => True).
Proof.
  intros R Hl Hb Hs. unfold assert_merkle_tree_membership. eapply fixed_bind; [apply fixed_merkle_root; assumption|intro; mono|]. intros c _. apply fixed_assert_equal.
Qed.
Lemma sames_matrix_mul rows xs : sames xs -> sames (matrix_mul rows xs).
Proof.
  intro H. unfold sames, matrix_mul. rewrite Forall_map. apply Forall_forall. intros [row x] I. apply in_combine_r in I. cbn [fst snd].
  unfold sames in H. rewrite Forall_forall in H. specialize (H x I).
  assert (G : forall l s, same s -> same (fold_left (fun sum c => e_add sum (e_scale x c)) l s)).
  { induction l as [|c l IH]; intros s Hs; cbn [fold_left]; [exact Hs|]. apply IH, same_add; [exact Hs|apply same_scale, H]. }
  apply G, same_zero.
Qed.
Lemma fixed_lift_bind {A C} (o : outcome A) (k : A -> B C) Q : (forall a, o = Ok a -> fixed (k a) Q) -> fixed (bbind (blift o) k) Q.
Proof.
  intros H b c b' E. unfold bbind, blift in E. destruct o as [a| |]; try discriminate. apply (H a eq_refl b c b' E).
Qed.
Lemma rigid_sbox sb : sb <> Inverse -> rigid1 (sbox_permute sb).
Proof.
  intro N. split; [apply (mono_sbox Hp)|]. intros x Hx. unfold sbox_permute. apply fixed_lift_bind. intros p E.
  unfold sbox_to_permutation in E. destruct sb; [| |congruence].
  all: destruct (el_from _) as [z| |]; cbn [obind] in E; try discriminate; destruct (monomial_new z) as [n| |]; cbn [obind] in E; try discriminate; injection E as <-.
  all: apply fixed_exponentiation, Hx.
Qed.
Lemma mono_update_first f l : (forall x, mono (f x)) -> mono (update_first f l).
Proof. intro H. destruct l; cbn [update_first]; [apply mono_lift|]. apply mono_bind; [apply H|intro; apply mono_ret]. Qed.
Lemma rigidl_poseidon p : pos_sbox p <> Inverse -> rigidl (poseidon_permute p).
Proof.
  intro N. destruct (rigid_sbox _ N) as [M R].
  assert (MM : forall c r, mono (subbed <- (if poseidon_full_round p r then bmap (sbox_permute (pos_sbox p)) c else update_first (sbox_permute (pos_sbox p)) c) ;; bret (matrix_mul (pos_mds p) subbed))).
  { intros c r. apply mono_bind; [|intro; apply mono_ret]. destruct (poseidon_full_round p r); [apply mono_bmap, M|apply mono_update_first, M]. }
  split.
  - intro xs. unfold poseidon_permute. apply mono_bind; [apply mono_lift|intro]. apply mono_bind; [apply mono_lift|intro]. apply mono_bfold. exact MM.
  - intros xs H. unfold poseidon_permute. eapply fixed_bind with (Q := fun _ => True); [apply fixed_lift; auto|intro; apply mono_bind; [apply mono_lift|intro; apply mono_bfold, MM]|]. intros _ _.
    eapply fixed_bind with (Q := fun _ => True); [apply fixed_lift; auto|intro; apply mono_bfold, MM|]. intros _ _. apply fixed_bfold; [exact MM| |exact H].
    intros c r _ Hc. eapply fixed_bind with (Q := sames); [|intro; apply mono_ret|intros d Hd; apply fixed_ret, sames_matrix_mul, Hd].
    destruct (poseidon_full_round p r).
    + apply fixed_bmap; [exact M|]. intros a Ha. apply R. unfold sames in Hc. rewrite Forall_forall in Hc. apply Hc, Ha.
    + destruct c as [|a c]; cbn [update_first]; [apply fixed_lift; discriminate|]. inversion Hc; subst.
      eapply fixed_bind; [apply R; assumption|intro; apply mono_ret|]. intros a' Ha'. apply fixed_ret. constructor; assumption.
Qed.
Lemma rigid_pi r : 1 <= res_alpha r < order -> rigid1 (rescue_pi1 r) /\ rigid1 (rescue_pi2 r).
Proof.
  intro Ha. split; (split; [intro; unfold rescue_pi1, rescue_pi2; mono|intros x Hx]);
    (eapply fixed_bind with (Q := fun n => n = res_alpha r /\ Z.gcd (order - 1) n = 1); [apply fixed_lift|intro; mono|intros n [-> Hg]]).
  1,3: intros n E; rewrite (monomial_new_ok Hp) in E by (unfold infield; lia); destruct (Z.eqb_spec (Z.gcd (order - 1) (res_alpha r)) 1); [|discriminate]; injection E as <-; split; [reflexivity|assumption].
  - apply fixed_exponentiation, Hx.
  - apply fixed_monomial_inverse; assumption.
Qed.
Lemma rigidl_rescue r : 1 <= res_alpha r < order -> rigidl (rescue_permute r).
Proof.
  intro Ha. destruct (rigid_pi r Ha) as [[M1 R1] [M2 R2]].
  assert (MM : forall c (_ : nat), mono (c1 <- bmap (rescue_pi1 r) c ;; c2 <- bmap (rescue_pi2 r) (matrix_mul (res_mds r) c1) ;; bret (matrix_mul (res_mds r) c2))).
  { intros c _. apply mono_bind; [apply mono_bmap, M1|intro]. apply mono_bind; [apply mono_bmap, M2|intro; apply mono_ret]. }
  split; [intro; unfold rescue_permute; apply mono_bfold, MM|]. intros xs H. unfold rescue_permute. apply fixed_bfold; [exact MM| |exact H].
  assert (S : forall m l, rigid1 m -> sames l -> fixed (bmap m l) sames).
  { intros m l [M R] Hl. apply fixed_bmap; [exact M|]. intros a I. apply R. unfold sames in Hl. rewrite Forall_forall in Hl. apply Hl, I. }
  intros c _ _ Hc. eapply fixed_bind; [apply S; [split; assumption|exact Hc]|intro; apply mono_bind; [apply mono_bmap, M2|intro; apply mono_ret]|]. intros c1 H1.
  eapply fixed_bind; [apply S; [split; assumption|apply sames_matrix_mul, H1]|intro; apply mono_ret|]. intros c2 H2. apply fixed_ret, sames_matrix_mul, H2.
Qed.
Lemma sames_sponge_add chunk : forall s r, sponge_add s chunk = Ok r -> sames s -> sames chunk -> sames r.
Proof.
  induction chunk as [|c cs IH]; intros [|e es] r E Hs Hc; cbn [sponge_add] in E; try discriminate; try (injection E as <-; assumption).
  destruct (sponge_add es cs) as [t| |] eqn:Et; cbn [obind] in E; try discriminate. injection E as <-. inversion Hs; inversion Hc; subst.
  constructor; [apply same_add; assumption|]. eapply IH; eauto.
Qed.
Lemma sames_app a b : sames (a ++ b) <-> sames a /\ sames b.
Proof. apply Forall_app. Qed.
Lemma fixed_sponge_step s i c : rigidl (mp_permute (sp_perm s)) -> sames i -> sames c -> fixed (sponge_step s i c) (fun p => sames (fst p) /\ sames (snd p)).
Proof.
  intros [M R] Hi Hc. unfold sponge_step. eapply fixed_bind; [apply R, sames_app; split; assumption|intro; mono|]. intros st Hst.
  fbind (apply fixed_lift with (Q := fun _ => True); auto). intros _ _. fbind (apply fixed_lift with (Q := fun _ => True); auto). intros _ _.
  apply fixed_ret. split; [apply sames_firstn, Hst|apply sames_skipn, Hst].
Qed.
Lemma mono_step s i c : rigidl (mp_permute (sp_perm s)) -> mono (sponge_step s i c).
Proof. intros [M _]. unfold sponge_step. apply mono_bind; [apply M|intro; mono]. Qed.
Lemma fixed_squeeze s n : rigidl (mp_permute (sp_perm s)) -> forall f i c out, sames i -> sames c -> sames out -> fixed (sponge_squeeze f s i c out n) sames.
Proof.
  intros R f. induction f as [|f IH]; intros i c out Hi Hc Ho; cbn [sponge_squeeze]; destruct (_ <? _)%nat; try (apply fixed_ret; exact Ho); [apply fixed_lift; discriminate|].
  eapply fixed_bind; [apply fixed_sponge_step; assumption| |].
  - intros [i' c']. clear - R. generalize (out ++ i')%list as o. revert i' c'. induction f as [|f IH]; intros i' c' o; cbn [sponge_squeeze]; destruct (_ <? _)%nat; try apply mono_ret; [apply mono_lift|].
    apply mono_bind; [apply mono_step, R|intros [? ?]; apply IH].
  - intros [i' c'] [H1 H2]. apply IH; [exact H1|exact H2|apply sames_app; split; assumption].
Qed.
Lemma sames_repeat n : sames (repeat e_zero n).
Proof. induction n; constructor; [apply same_zero|assumption]. Qed.
Lemma sames_chunks n l cs : chunks n l = Ok cs -> sames l -> Forall sames cs.
Proof.
  unfold chunks. destruct (n =? 0)%nat; [discriminate|]. intros E H. injection E as <-.
  eapply Forall_impl; [|apply chunks_fuel_Forall, H]. intros c [Hc _]. exact Hc.
Qed.
Lemma mono_squeeze s n : rigidl (mp_permute (sp_perm s)) -> forall f i c out, mono (sponge_squeeze f s i c out n).
Proof.
  intros R f. induction f as [|f IH]; intros i c out; cbn [sponge_squeeze]; destruct (_ <? _)%nat; try apply mono_ret; [apply mono_lift|].
  apply mono_bind; [apply mono_step, R|intros [? ?]; apply IH].
Qed.
Lemma fixed_sponge s xs n : rigidl (mp_permute (sp_perm s)) -> sames xs -> fixed (sponge_evaluate s xs n) sames.
Proof.
  intros R H. unfold sponge_evaluate.
  assert (MM : forall st chunk, mono (input' <- blift (sponge_add (fst st) chunk) ;; sponge_step s input' (snd st))).
  { intros st chunk. apply mono_bind; [apply mono_lift|intro; apply mono_step, R]. }
  eapply fixed_bind with (Q := Forall sames); [apply fixed_lift; intros cs E; eapply sames_chunks; eauto| |].
  - intro cs. apply mono_bind; [apply mono_bfold, MM|intros [? ?]; apply mono_bind; [apply mono_squeeze, R|intro; apply mono_ret]].
  - intros cs Hcs. eapply fixed_bind with (Q := fun p : list expr * list expr => sames (fst p) /\ sames (snd p)).
    + apply fixed_bfold; [exact MM| |split; apply sames_repeat]. intros [i c] ch Ich [Hi Hc]. cbn [fst snd] in *.
      eapply fixed_bind with (Q := sames); [apply fixed_lift; intros r E; eapply sames_sponge_add; eauto; rewrite Forall_forall in Hcs; apply Hcs, Ich|intro; apply mono_step, R|].
      intros i' Hi'. apply fixed_sponge_step; assumption.
    + intros [? ?]. apply mono_bind; [apply mono_squeeze, R|intro; apply mono_ret].
    + intros [i c] [Hi Hc]. cbn [fst snd] in *. eapply fixed_bind; [apply fixed_squeeze; assumption|intro; apply mono_ret|]. intros o Ho. apply fixed_ret, sames_firstn, Ho.
Qed.
End Unique.
