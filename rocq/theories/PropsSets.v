(** C110: distinct items, membership and inclusion from the gadgets of the library. *)
From Coq Require Import ZArith List Bool Arith Lia Znumtheory Permutation Sorted.
From Verif Require Import Base FieldM FieldP ExprM BuilderM GadgetsM WaksmanM Spec ExprP BitsP MonoP LocalP SoundP CmpP GadgetSoundP HonestP
  CompleteP CmpCompleteP GadgetCompleteP SatP ForgeP Demo PropLib WaksmanP SortP ProgramP PropsExact.
Import ListNotations.
Open Scope Z_scope.

(** ** Client circuits, not code of /repo *)
Section Client.
Context {F : Field}.
(** Each item less than the next. *)
Fixpoint assert_increasing (l : list expr) : B unit :=
  match l with
  | x :: l' => match l' with y :: _ => _ <- assert_lt x y ;; assert_increasing l' | [] => bret tt end
  | [] => bret tt
  end.
Definition assert_distinct (l : list expr) : B unit := r <- sort_ascending l ;; assert_increasing r.
Fixpoint assert_not_in (x : expr) (l : list expr) : B unit :=
  match l with y :: l' => _ <- assert_nonequal x y ;; assert_not_in x l' | [] => bret tt end.
Fixpoint assert_pairwise (l : list expr) : B unit :=
  match l with x :: l' => _ <- assert_not_in x l' ;; assert_pairwise l' | [] => bret tt end.
(** The product of the differences from the items. *)
Fixpoint differences (x : expr) (l : list expr) : B expr :=
  match l with y :: l' => p <- differences x l' ;; product (e_sub x y) p | [] => bret e_one end.
Definition member (x : expr) (l : list expr) : B expr := p <- differences x l ;; g_zero p.
Fixpoint assert_included (l m : list expr) : B unit :=
  match l with x :: l' => _ <- (r <- member x m ;; assert_true r) ;; assert_included l' m | [] => bret tt end.
End Client.

Section Proofs.
Context {F : Field} (Hp : prime order) (H4 : (4 <= max_bits)%nat).
Let Hord : 2 <= order := prime_ge2 Hp.
Let H2 : 2 < order := max_bits_odd H4.

Lemma mono_increasing l : mono (assert_increasing l).
Proof. induction l as [|x [|y l'] IH]; cbn [assert_increasing]; [mono|mono|]. apply mono_bind; [unfold assert_lt, lt; mono|intro; exact IH]. Qed.
Lemma local_increasing l : local (assert_increasing l).
Proof. induction l as [|x [|y l'] IH]; cbn [assert_increasing]; [local|local|]. apply local_bind; [unfold assert_lt, lt; local|intro; exact IH]. Qed.
Lemma mono_not_in x l : mono (assert_not_in x l).
Proof. induction l as [|y l IH]; cbn [assert_not_in]; [mono|]. apply mono_bind; [mono|intro; exact IH]. Qed.
Lemma local_not_in x l : local (assert_not_in x l).
Proof. induction l as [|y l IH]; cbn [assert_not_in]; [local|]. apply local_bind; [local|intro; exact IH]. Qed.
Lemma mono_pairwise l : mono (assert_pairwise l).
Proof. induction l as [|y l IH]; cbn [assert_pairwise]; [mono|]. apply mono_bind; [apply mono_not_in|intro; exact IH]. Qed.
Lemma local_pairwise l : local (assert_pairwise l).
Proof. induction l as [|y l IH]; cbn [assert_pairwise]; [local|]. apply local_bind; [apply local_not_in|intro; exact IH]. Qed.
Lemma mono_differences x l : mono (differences x l).
Proof. induction l as [|y l IH]; cbn [differences]; [mono|]. apply mono_bind; [exact IH|intro; mono]. Qed.
Lemma local_differences x l : local (differences x l).
Proof. induction l as [|y l IH]; cbn [differences]; [local|]. apply local_bind; [exact IH|intro; local]. Qed.
Lemma mono_member x l : mono (member x l).
Proof. unfold member. apply mono_bind; [apply mono_differences|intro; mono]. Qed.
Lemma local_member x l : local (member x l).
Proof. unfold member. apply local_bind; [apply local_differences|intro; local]. Qed.
Lemma mono_included l m : mono (assert_included l m).
Proof. induction l as [|y l IH]; cbn [assert_included]; [mono|]. apply mono_bind; [apply mono_bind; [apply mono_member|intro; mono]|intro; exact IH]. Qed.
Lemma local_included l m : local (assert_included l m).
Proof. induction l as [|y l IH]; cbn [assert_included]; [local|]. apply local_bind; [apply local_bind; [apply local_member|intro; local]|intro; exact IH]. Qed.

(** ** Distinct items *)
Lemma snd_increasing w : wf_witness w -> forall l, sound w (assert_increasing l) (fun _ => Sorted Z.lt (map (ev w) l)).
Proof using Hp H4.
  intros Hw l. induction l as [|x [|y l'] IH]; cbn [assert_increasing map]; [apply sound_ret; constructor|apply sound_ret; repeat constructor|].
  eapply sound_bind; [apply (snd_assert_lt Hp w Hw)|intro; exact (mono_increasing (y :: l'))|]. cbv beta. intros _ L. eapply sound_weaken; [exact IH|]. cbv beta. intros _ S.
  constructor; [exact S|constructor; exact L].
Qed.
Lemma cmpl_increasing D P : forall l vs s, hasl s l vs -> Sorted Z.lt vs -> comp D P s (assert_increasing l) (done P (fun _ _ => True)).
Proof using Hp H4.
  induction l as [|x [|y l'] IH]; intros vs s H S; cbn [assert_increasing]; [apply comp_ret; split; auto|apply comp_ret; split; auto|].
  inversion H as [|? a ? ? Ha H']; subst. inversion H' as [|? b ? ? Hb H'']; subst. inversion S as [|? ? S' HS]; subst. inversion HS; subst.
  cbind (eapply (cmpl_assert_cmp Hp H2); [exact H4|exact Ha|exact Hb|apply Z.ltb_lt; assumption]). intros u P1 s1 X1 G1 [-> _]. refine (IH _ s1 _ S'). eapply hasl_ext; [exact X1|exact H'].
Qed.
Lemma increasing_distinct l : Sorted Z.lt l -> NoDup l.
Proof.
  intro S. apply Sorted_StronglySorted in S; [|intros a b c; lia]. induction S as [|a l S IH H]; constructor; [|exact IH]. intro I. rewrite Forall_forall in H. specialize (H a I). lia.
Qed.
Lemma distinct_increasing l : StronglySorted Z.le l -> NoDup l -> Sorted Z.lt l.
Proof.
  intros S N. apply StronglySorted_Sorted. induction S as [|a l S IH H]; constructor; inversion N; subst; [auto|]. rewrite Forall_forall in H |- *. intros b I. specialize (H b I).
  assert (a <> b) by (intros ->; contradiction). lia.
Qed.
Lemma snd_distinct w : wf_witness w -> forall l, sound w (assert_distinct l) (fun _ => NoDup (map (ev w) l)).
Proof using Hp H4.
  intros Hw l. unfold assert_distinct. eapply sound_bind; [apply (snd_sort_ascending Hp w Hw)|intro; apply mono_increasing|]. cbv beta. intros r [_ P].
  eapply sound_weaken; [apply (snd_increasing w Hw)|]. cbv beta. intros _ S. eapply Permutation_NoDup; [symmetry; exact P|apply increasing_distinct, S].
Qed.
Lemma cmpl_distinct D P s l vs : l <> [] -> hasl s l vs -> NoDup vs -> comp D P s (assert_distinct l) (done P (fun _ _ => True)).
Proof using Hp H4.
  intros Hne H N. unfold assert_distinct. cbind (apply (cmpl_sort_ascending Hp H2); [exact H4|exact Hne|exact H]). intros r P1 s1 X1 G1 [-> Hr].
  eapply cmpl_increasing; [exact Hr|]. apply distinct_increasing; [apply sort_items_sorted|]. eapply Permutation_NoDup; [apply sort_items_perm|exact N].
Qed.

Lemma snd_not_in w : wf_witness w -> forall x l, sound w (assert_not_in x l) (fun _ => ~ In (ev w x) (map (ev w) l)).
Proof using Hp H4.
  intros Hw x l. induction l as [|y l IH]; cbn [assert_not_in map In]; [apply sound_ret; tauto|].
  eapply sound_bind; [apply (snd_assert_nonequal Hp w Hw)|intro; apply mono_not_in|]. cbv beta. intros _ N. eapply sound_weaken; [exact IH|]. cbv beta. intros _ I [E|E]; congruence || auto.
Qed.
Lemma cmpl_not_in D P x a : forall l vs s, has s x a -> hasl s l vs -> ~ In a vs -> comp D P s (assert_not_in x l) (done P (fun _ _ => True)).
Proof using Hp H4.
  induction l as [|y l IH]; intros vs s Hx H N; cbn [assert_not_in]; [apply comp_ret; split; auto|]. inversion H as [|? b ? ? Hb H']; subst. cbn [In] in N.
  cbind (eapply (cmpl_assert_nonequal Hp H2); [exact Hx|exact Hb|intro; subst; tauto]). intros u P1 s1 X1 G1 [-> _]. carry. eapply IH; [exact Hx|eapply hasl_ext; [exact X1|exact H']|tauto].
Qed.
Lemma snd_pairwise w : wf_witness w -> forall l, sound w (assert_pairwise l) (fun _ => NoDup (map (ev w) l)).
Proof using Hp H4.
  intros Hw l. induction l as [|x l IH]; cbn [assert_pairwise map]; [apply sound_ret; constructor|].
  eapply sound_bind; [apply (snd_not_in w Hw)|intro; apply mono_pairwise|]. cbv beta. intros _ N. eapply sound_weaken; [exact IH|]. cbv beta. intros _ I. constructor; assumption.
Qed.
Lemma cmpl_pairwise D P : forall l vs s, hasl s l vs -> NoDup vs -> comp D P s (assert_pairwise l) (done P (fun _ _ => True)).
Proof using Hp H4.
  induction l as [|y l IH]; intros vs s H N; cbn [assert_pairwise]; [apply comp_ret; split; auto|]. inversion H as [|? b ? ? Hb H']; subst. inversion N; subst.
  cbind (eapply cmpl_not_in; [exact Hb|exact H'|assumption]). intros u P1 s1 X1 G1 [-> _]. eapply IH; [eapply hasl_ext; [exact X1|exact H']|assumption].
Qed.

(** ** Membership *)
Definition apart (a : Z) (l : list Z) : Z := fold_right (fun b p => (((a - b) mod order) * p) mod order) 1 l.
Definition within (a : Z) (l : list Z) : Z := if in_dec Z.eq_dec a l then 1 else 0.
Lemma apart_zero a l : infield a -> Forall infield l -> (if apart a l =? 0 then 1 else 0) = within a l.
Proof using Hp H4.
  intros Ia Hl. assert (Q : apart a l = 0 <-> In a l).
  { induction Hl as [|b l Ib Hl IH]; cbn [apart fold_right In]; [split; [discriminate|tauto]|]. fold (apart a l). rewrite <- IH. split.
    - intro E. apply Zmod_divide in E; [|lia]. apply prime_mult in E; [|exact Hp]. destruct E as [E|E].
      + left. apply Zdivide_mod in E. rewrite Zmod_mod in E. unfold infield in *. apply Zmod_divide in E; [|lia]. destruct E as [k E]. assert (k = 0) by nia. subst k. lia.
      + right. destruct l as [|c l]; [cbn in E |- *; apply Zdivide_le in E; lia|]. apply Zdivide_mod in E. rewrite <- E. symmetry. apply Z.mod_small. cbn [apart fold_right]. apply Z.mod_pos_bound. lia.
    - intros [->|E]; [rewrite Z.sub_diag, Z.mod_0_l by lia; reflexivity|rewrite E, Z.mul_0_r; apply Z.mod_0_l; lia]. }
  unfold within. destruct (in_dec Z.eq_dec a l) as [I|I], (Z.eqb_spec (apart a l) 0); tauto.
Qed.
Lemma snd_differences w : wf_witness w -> forall x l, sound w (differences x l) (fun r => ev w r = apart (ev w x) (map (ev w) l)).
Proof using Hp H4.
  intros Hw x l. induction l as [|y l IH]; cbn [differences map]; [apply sound_ret; apply (ev_one_ Hp w Hw)|].
  eapply sound_bind; [exact IH|intro; mono|]. cbv beta. intros p E. slast (apply (snd_product Hp w Hw)). intros r ->. rewrite E, (ev_sub_mod Hp). reflexivity.
Qed.
Lemma cmpl_differences D P x a : forall l vs s, good s -> has s x a -> hasl s l vs -> comp D P s (differences x l) (done P (fun r s' => has s' r (apart a vs))).
Proof using Hp H4.
  induction l as [|y l IH]; intros vs s G Hx H; cbn [differences]; inversion H as [|? b ? ? Hb H']; subst; [apply comp_ret; split; [reflexivity|apply (has_one Hp), G]|].
  cbind (eapply IH; [exact G|exact Hx|exact H']). intros p P1 s1 X1 G1 [-> Ep]. carry. apply (cmpl_product Hp); [apply (has_sub Hp); assumption|exact Ep].
Qed.
Lemma snd_member w : wf_witness w -> forall x l, sound w (member x l) (fun r => ev w r = within (ev w x) (map (ev w) l)).
Proof using Hp H4.
  intros Hw x l. unfold member. eapply sound_bind; [apply (snd_differences w Hw)|intro; mono|]. cbv beta. intros p E. slast (apply (snd_zero Hp w Hw)). intros r ->. rewrite E.
  apply apart_zero; [apply (evi Hp)|]. rewrite Forall_map, Forall_forall. intros y _. apply (evi Hp).
Qed.
Lemma cmpl_member D P s x a l vs : has s x a -> hasl s l vs -> comp D P s (member x l) (done P (fun r s' => has s' r (within a vs))).
Proof using Hp H4.
  intros Hx H. apply comp_hon. intros G _ _. unfold member. cbind (eapply cmpl_differences; [exact G|exact Hx|exact H]). intros p P1 s1 X1 G1 [-> Ep].
  rewrite <- apart_zero; [|apply (has_infield Hp _ _ _ Hx)|clear -H Hp; induction H; constructor; [eapply (has_infield Hp); eassumption|assumption]].
  apply (cmpl_zero Hp H2). exact Ep.
Qed.
Lemma snd_included w : wf_witness w -> forall l m, sound w (assert_included l m) (fun _ => incl (map (ev w) l) (map (ev w) m)).
Proof using Hp H4.
  intros Hw l m. induction l as [|x l IH]; cbn [assert_included map]; [apply sound_ret; intros a []|].
  eapply sound_bind with (Q := fun _ => In (ev w x) (map (ev w) m)); [|intro; apply mono_included|].
  - eapply sound_bind; [apply (snd_member w Hw)|intro; mono|]. cbv beta. intros r E. slast (apply (snd_assert_true Hp w Hw)). intros _ E1. rewrite E in E1. unfold within in E1.
    destruct (in_dec Z.eq_dec (ev w x) (map (ev w) m)); [assumption|discriminate].
  - cbv beta. intros _ I. eapply sound_weaken; [exact IH|]. cbv beta. intros _ J. apply incl_cons; assumption.
Qed.
Lemma cmpl_included D P m ms : forall l vs s, hasl s l vs -> hasl s m ms -> incl vs ms -> comp D P s (assert_included l m) (done P (fun _ _ => True)).
Proof using Hp H4.
  induction l as [|x l IH]; intros vs s H Hm I; cbn [assert_included]; [apply comp_ret; split; auto|]. inversion H as [|? a ? ? Ha H']; subst.
  eapply comp_bind with (Q := fun _ P' _ => P' = P).
  - cbind (eapply cmpl_member; [exact Ha|exact Hm]). intros r P1 s1 X1 G1 [-> Er]. unfold within in Er. destruct (in_dec Z.eq_dec a ms) as [J|J]; [|exfalso; apply J, I; left; reflexivity].
    cweaken (apply (cmpl_assert_true Hp); exact Er). intros u P2 s2 _ _ [-> _]. reflexivity.
  - cbv beta. intros u P1 s1 X1 G1 ->. carry. eapply IH; [eapply hasl_ext; [exact X1|exact H']|exact Hm|]. intros b J. apply I. right. exact J.
Qed.
End Proofs.

(** ** C110 *)
Theorem C110_exact : forall (F : Field), prime order -> (4 <= max_bits)%nat -> forall x l m,
  (l <> [] -> asserts_exactly (assert_distinct l) (uses l) (fun w => NoDup (map (ev w) l))) /\
  asserts_exactly (assert_pairwise l) (uses l) (fun w => NoDup (map (ev w) l)) /\
  allows_exactly (member x l) (uses (x :: l)) ev (fun w z => z = if in_dec Z.eq_dec (ev w x) (map (ev w) l) then 1 else 0) /\
  asserts_exactly (assert_not_in x l) (uses (x :: l)) (fun w => ~ In (ev w x) (map (ev w) l)) /\
  asserts_exactly (assert_included l m) (uses (l ++ m)) (fun w => incl (map (ev w) l) (map (ev w) m)).
Proof.
  intros F Hp H4 x l m.
  assert (Tl : forall s, uses (x :: l) (nx s) (wt s) -> has s x (ev (wt s) x) /\ hasl s l (map (ev (wt s)) l)).
  { intros s U. split; [has_u|]. apply uses_hasl. unfold uses in U |- *. inversion U; assumption. }
  split; [|split; [|split; [|split]]].
  - intro Hne. apply exact_assert; [intros w Hw _; apply (snd_distinct Hp H4 w Hw)|]. intros s G U N.
    apply csat_comp; [unfold assert_distinct; apply local_bind; [apply local_sort_ascending|intro; apply local_increasing]|].
    eapply (cmpl_distinct Hp H4); [exact Hne|apply uses_hasl, U|exact N].
  - apply exact_assert; [intros w Hw _; apply (snd_pairwise Hp H4 w Hw)|]. intros s G U N. apply csat_comp; [apply local_pairwise|]. eapply (cmpl_pairwise Hp H4); [apply uses_hasl, U|exact N].
  - apply exact_det; [intros w Hw _; apply (snd_member Hp H4 w Hw)|]. intros s G U. destruct (Tl s U). apply csat_comp; [apply local_member|]. apply (cmpl_member Hp H4); assumption.
  - apply exact_assert; [intros w Hw _; apply (snd_not_in Hp H4 w Hw)|]. intros s G U N. destruct (Tl s U). apply csat_comp; [apply local_not_in|]. eapply (cmpl_not_in Hp H4); eassumption.
  - apply exact_assert; [intros w Hw _; apply (snd_included Hp H4 w Hw)|]. intros s G U N. apply csat_comp; [apply local_included|].
    unfold uses in U. rewrite Forall_app in U. destruct U as [U1 U2]. eapply (cmpl_included Hp H4); [apply uses_hasl; exact U1|apply uses_hasl; exact U2|exact N].
Qed.
Print Assumptions C110_exact.

(** Executed on inputs the circuits succeed when the claim holds, and [member] computes its result. *)
Theorem C110_honest : forall (F : Field), prime order -> (4 <= max_bits)%nat -> forall vals x l m,
  good_inputs vals -> on_inputs vals x -> on_inputs_all vals l -> on_inputs_all vals m ->
  let a := ev (input_witness vals) x in let xs := map (ev (input_witness vals)) l in let ys := map (ev (input_witness vals)) m in
  (l <> [] -> NoDup xs -> runs vals (assert_distinct l) (fun _ _ => True)) /\
  (NoDup xs -> runs vals (assert_pairwise l) (fun _ _ => True)) /\
  runs vals (member x l) (fun r v => e_evaluate v r = Ok (if in_dec Z.eq_dec a xs then 1 else 0)) /\
  (~ In a xs -> runs vals (assert_not_in x l) (fun _ _ => True)) /\
  (incl xs ys -> runs vals (assert_included l m) (fun _ _ => True)).
Proof.
  intros F Hp H4 vals x l m Hv Hx Hl Hm a xs ys. pose proof (has_input vals x Hx) as Ix. pose proof (hasl_input vals l Hl) as Il. pose proof (hasl_input vals m Hm) as Im.
  fold a in Ix. fold xs in Il. fold ys in Im. split; [|split; [|split; [|split]]].
  - intros Hne N. apply (to_runs0 Hp); [exact Hv|]. eapply (cmpl_distinct Hp H4); eassumption.
  - intros N. apply (to_runs0 Hp); [exact Hv|]. eapply (cmpl_pairwise Hp H4); eassumption.
  - apply (to_runs1 Hp); [exact Hv|]. apply (cmpl_member Hp H4); assumption.
  - intros N. apply (to_runs0 Hp); [exact Hv|]. eapply (cmpl_not_in Hp H4); eassumption.
  - intros N. apply (to_runs0 Hp); [exact Hv|]. eapply (cmpl_included Hp H4); eassumption.
Qed.
Print Assumptions C110_honest.

(** Over the integers modulo 11 the hypotheses hold, and the circuits give: *)
Example C110_example : let F : Field := F11 in
  prime order /\ (4 <= max_bits)%nat /\
  demo [7; 3; 10] (assert_pairwise (map e_wire [1; 2; 3]%nat)) (fun _ => []) = Ok (true, []) /\
  demo [3; 7; 3; 10] (member (e_wire 1) (map e_wire [2; 3; 4]%nat)) (fun r => [r]) = Ok (true, [1]) /\
  demo [4; 7; 3; 10] (member (e_wire 1) (map e_wire [2; 3; 4]%nat)) (fun r => [r]) = Ok (true, [0]) /\
  demo [4; 7; 3; 10] (assert_included [e_wire 1] (map e_wire [2; 3; 4]%nat)) (fun _ => []) = Ok (false, []).
Proof. intro F. split; [exact prime_F11|]. split; [vm_compute; lia|]. repeat split; vm_compute; reflexivity. Qed.
