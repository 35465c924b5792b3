(** Proofs about sorting.rs. *)
From Coq Require Import ZArith List Bool Arith Lia Znumtheory Permutation Sorted.
From Verif Require Import Base FieldM FieldP ExprM BuilderM GadgetsM WaksmanM Spec ExprP BitsP MonoP LocalP SoundP
  CmpP GadgetSoundP HonestP CompleteP CmpCompleteP GadgetCompleteP SatP ForgeP WaksmanP.
Import ListNotations.
Open Scope Z_scope.

(** ** the sorted list *)
Lemma sort_insert_perm x l : Permutation (x :: l) (sort_insert x l).
Proof.
  induction l as [|y l IH]; cbn [sort_insert]; [reflexivity|]. destruct (x <=? y)%Z; [reflexivity|].
  rewrite perm_swap. constructor. exact IH.
Qed.
Lemma sort_items_perm l : Permutation l (sort_items l).
Proof.
  induction l as [|x l IH]; cbn; [constructor|]. etransitivity; [constructor; exact IH|]. apply sort_insert_perm.
Qed.
Lemma sort_insert_sorted x l : StronglySorted Z.le l -> StronglySorted Z.le (sort_insert x l).
Proof.
  induction 1 as [|y l Hs IH Hy]; cbn [sort_insert]; [repeat constructor|].
  destruct (Z.leb_spec x y) as [L|L].
  - constructor; [constructor; assumption|]. constructor; [exact L|].
    eapply Forall_impl; [|exact Hy]. cbv beta. intros. lia.
  - constructor; [exact IH|]. rewrite <- sort_insert_perm. constructor; [lia|exact Hy].
Qed.
Lemma sort_items_sorted l : StronglySorted Z.le (sort_items l).
Proof. induction l; cbn; [constructor|apply sort_insert_sorted; assumption]. Qed.
Lemma sort_items_length l : length (sort_items l) = length l.
Proof. symmetry. apply Permutation_length, sort_items_perm. Qed.

Lemma StronglySorted_snoc {A} (R : A -> A -> Prop) l x : StronglySorted R l -> Forall (fun y => R y x) l ->
  StronglySorted R (l ++ [x]).
Proof.
  induction 1 as [|y l Hs IH Hy]; intro Hx; cbn; [repeat constructor|].
  apply Forall_cons_iff in Hx. destruct Hx as [H1 H2]. constructor; [apply IH, H2|].
  apply Forall_app. split; [exact Hy|]. constructor; [exact H1|constructor].
Qed.
Lemma StronglySorted_rev {A} (R : A -> A -> Prop) l : StronglySorted R l -> StronglySorted (fun x y => R y x) (rev l).
Proof.
  induction 1 as [|x l Hs IH Hx]; cbn; [constructor|]. apply StronglySorted_snoc; [exact IH|]. apply Forall_rev, Hx.
Qed.

Lemma F2_impl {A C} (R S : A -> C -> Prop) l m : (forall a c, R a c -> S a c) -> Forall2 R l m -> Forall2 S l m.
Proof. induction 2; constructor; auto. Qed.
Lemma F2_rev {A C} (R : A -> C -> Prop) l m : Forall2 R l m -> Forall2 R (rev l) (rev m).
Proof. induction 1; cbn; [constructor|]. apply Forall2_app; [assumption|]. constructor; [assumption|constructor]. Qed.

Section Sort.
Context {F : Field} (Hp : prime order) (H2 : 2 < order).
Let Hord : 2 <= order := prime_ge2 Hp.

(** ** nothing is lost and nothing depends on what the builder holds *)
Lemma mono_sort_ascending l : mono (sort_ascending l).
Proof. unfold sort_ascending. mono. Qed.
Lemma local_sort_ascending l : local (sort_ascending l).
Proof. unfold sort_ascending. local. Qed.
Hint Resolve mono_sort_ascending : mono.
Hint Resolve local_sort_ascending : local.
Lemma mono_sort_descending l : mono (sort_descending l).
Proof. unfold sort_descending. mono. Qed.
Lemma local_sort_descending l : local (sort_descending l).
Proof. unfold sort_descending. local. Qed.

Hint Resolve mono_sort_descending : mono.
Hint Resolve local_sort_descending : local.

(** ** soundness: the outputs are a rearrangement of the inputs *)
Lemma snd_sort_ascending w (Hw : wf_witness w) l : sound w (sort_ascending l)
  (fun r => length r = length l /\ Permutation (map (ev w) l) (map (ev w) r)).
Proof using Hp.
  unfold sort_ascending. sbind (apply sound_true). intros ws _.
  sbind (apply (snd_assert_permutation Hp w Hw)). intros _ [L P].
  repeat ((sbind (apply sound_true)); intros ? _). apply sound_ret. auto.
Qed.
Lemma snd_sort_descending w (Hw : wf_witness w) l : sound w (sort_descending l)
  (fun r => length r = length l /\ Permutation (map (ev w) l) (map (ev w) r)).
Proof using Hp.
  unfold sort_descending. sbind (apply (snd_sort_ascending w Hw)). intros r [L P]. apply sound_ret.
  rewrite rev_length, map_rev. split; [exact L|]. rewrite P. apply Permutation_rev.
Qed.

Lemma sort_empty_panics : forall b, sort_ascending [] b = Panic.
Proof. intro b. reflexivity. Qed.

(** ** honest executions *)
Section Honest.
Context (D : nat -> Prop).

Lemma hasl_firstn s es cs n : hasl s es cs -> hasl s (firstn n es) (firstn n cs).
Proof. intro H. revert n. induction H; intros [|n]; cbn; constructor; auto. apply IHForall2. Qed.

Lemma cmpl_assert_le_binary P s x y xl yl : hasl s x xl -> hasl s y yl ->
  Forall is_bit xl -> Forall is_bit yl -> length x = length y -> (0 < length x)%nat ->
  (S (cmp_chunk_bits (length x)) < max_bits)%nat -> bits_val xl <= bits_val yl ->
  comp D P s (assert_le_binary x y) (done P (fun _ _ => True)).
Proof using Hp H2.
  intros Hx Hy Bx By Hl H0 Hc Hle. unfold assert_le_binary, le_binary.
  cbind (eapply (cmpl_cmp_binary Hp H2); [exact Hx|exact Hy|assumption..]). intros r P1 s1 X1 G1 [-> Hr].
  cweaken (apply (cmpl_assert_true Hp); eapply has_eq; [exact Hr|simpl; destruct (Z.leb_spec (bits_val xl) (bits_val yl)); [reflexivity|lia]]).
  intros ? P2 s2 _ _ [-> _]. split; auto.
Qed.

Lemma cmpl_split_all P s es cs : hasl s es cs ->
  comp D P s (bmap split_allowing_ambiguity es)
    (done P (fun rs s' => Forall2 (fun r c => hasl s' r (zbl c max_bits)) rs cs)).
Proof using Hp.
  intro H. revert P s H. revert cs. induction es as [|e es IH]; intros cs P s H; inversion H; subst; cbn [bmap].
  - apply comp_ret. split; auto.
  - cbind (apply (cmpl_split_amb Hp); eassumption). intros r P1 s1 X1 G1 [-> Hr].
    cbind (apply IH; eapply hasl_ext; eassumption). intros rs P2 s2 X2 G2 [-> Hrs]. apply comp_ret.
    split; auto. constructor; [eapply hasl_ext; eassumption|exact Hrs].
Qed.

Lemma F2_oindex {A C} (R : A -> C -> Prop) l m d : Forall2 R l m -> forall i, (i < length m)%nat ->
  exists a, oindex l i = Ok a /\ R a (nth i m d).
Proof.
  induction 1 as [|a c l m Hac _ IH]; intros [|i] Hi; cbn in *; try lia; [eauto|]. apply IH. lia.
Qed.

Lemma hasl_map_wire s ws l : good s -> Forall2 (hasw s) ws l -> hasl s (map e_wire ws) l.
Proof using Hp. intro G. induction 1; cbn; constructor; [apply (has_wire Hp); assumption|assumption]. Qed.

Lemma firstn_last {A} (l : list A) n d : length l = S n -> l = firstn n l ++ [nth n l d].
Proof.
  revert n. induction l as [|x l IH]; intros n H; [discriminate|]. injection H as H. destruct n as [|n].
  - destruct l; [reflexivity|discriminate].
  - cbn. f_equal. apply IH. exact H.
Qed.

Lemma sorted_nth l : StronglySorted Z.le l -> forall i, (S i < length l)%nat -> nth i l 0 <= nth (S i) l 0.
Proof.
  clear. induction 1 as [|x l Hs IH Hx]; intros [|i] Hi; cbn in Hi; try lia.
  - cbn. destruct l as [|y l]; cbn in *; [lia|]. inversion Hx; subst. assumption.
  - cbn [nth]. apply IH. lia.
Qed.

Lemma map_nth_seq {A} (l : list A) d : map (fun i => nth i l d) (seq 0 (length l)) = l.
Proof.
  induction l as [|x l IH]; cbn [length seq map]; [reflexivity|]. f_equal. rewrite <- IH at 2.
  rewrite <- seq_shift, map_map. reflexivity.
Qed.
Lemma map_fst_combine {A C} (l : list A) : forall m : list C, length l = length m -> map fst (combine l m) = l.
Proof. induction l as [|x l IH]; intros [|y m] H; cbn in *; try discriminate; [reflexivity|]. f_equal. apply IH. lia. Qed.
Lemma enumerate_keys {A C} (ws : list A) (l : list C) d : length ws = length l ->
  map (fun ix => nth (fst ix) ws d) (enumerate l) = ws.
Proof.
  intro H. unfold enumerate. rewrite <- (map_map fst (fun i => nth i ws d)), map_fst_combine by apply seq_length.
  rewrite <- H. apply map_nth_seq.
Qed.
Lemma enumerate_In {A} (l : list A) i x d : In (i, x) (enumerate l) -> (i < length l)%nat /\ x = nth i l d.
Proof.
  unfold enumerate. intro H. apply In_nth with (d := (0%nat, d)) in H. destruct H as (k & Hk & E).
  rewrite combine_length, seq_length, Nat.min_id in Hk. rewrite combine_nth in E by apply seq_length.
  rewrite seq_nth in E by exact Hk. cbn in E. inversion E; subst. auto.
Qed.

Lemma cmpl_sort_ascending l vals P s : (4 <= max_bits)%nat -> l <> [] -> hasl s l vals ->
  comp D P s (sort_ascending l) (done P (fun r s' => hasl s' r (sort_items vals))).
Proof using Hp H2.
  intros H4 Hl Hv. unfold sort_ascending. cbv zeta.
  pose proof (hasl_length _ _ _ Hv) as Lv. set (out := sort_items vals).
  assert (Lo : length out = length l) by (unfold out; rewrite sort_items_length; lia).
  assert (Fo : Forall infield out).
  { unfold out. rewrite <- sort_items_perm. clear - Hv Hp. induction Hv; constructor; auto. eapply (has_infield Hp); eassumption. }
  assert (E : exists n, length l = S n) by (destruct l; [congruence|eexists; reflexivity]). destruct E as [n En].
  pose proof (cmpl_wires Hp D out Fo P s) as CW. rewrite Lo in CW.
  eapply comp_bind; [exact CW|]. cbv beta. clear CW. intros ws P1 s1 X1 G1 (Ews & Q1 & N1 & W1).
  assert (Ho : hasl s1 (map e_wire ws) out) by (apply hasl_map_wire; assumption).
  assert (Hv1 := hasl_ext _ _ _ _ X1 Hv).
  eapply comp_bind; [eapply (cmpl_assert_permutation Hp); [exact Hv1|exact Ho|apply sort_items_perm]|].
  cbv beta. intros ? P2 s2 X2 G2 [-> _].
  eapply comp_liftb; [unfold osub; rewrite En; reflexivity|]. rewrite ?En. replace (S n - 1)%nat with n by lia.
  assert (Ho2 := hasl_ext _ _ _ _ X2 Ho).
  cbind (apply cmpl_split_all; apply hasl_firstn; exact Ho2). intros fs P3 s3 X3 G3 [-> Hfs].
  assert (Ho3 := hasl_ext _ _ _ _ X3 Ho2).
  assert (Lw : length (map e_wire ws) = S n) by (rewrite (hasl_length _ _ _ Ho3); lia).
  destruct (hasl_nth _ _ _ Ho3 n ltac:(lia)) as (lo & Elo & _ & Hlo).
  eapply comp_liftb; [exact Elo|].
  cbind (eapply (cmpl_split Hp H2); [exact H4|exact Hlo]). intros la P4 s4 X4 G4 [-> Hla].
  assert (All : Forall2 (fun r c => hasl s4 r (zbl c max_bits)) (fs ++ [la]) out).
  { rewrite (firstn_last out n 0) by lia. apply Forall2_app; [|constructor; [exact Hla|constructor]].
    eapply F2_impl; [|exact Hfs]. cbv beta. intros. eapply hasl_ext; eassumption. }
  eapply comp_bind.
  { apply (comp_bmap D) with (R := fun (_ : nat) (_ : unit) (_ : st) => True); [auto|].
    intros i s5 Hi X5. apply in_seq in Hi.
    destruct (F2_oindex _ _ _ 0 All i ltac:(lia)) as (x & Ex & Hx).
    destruct (F2_oindex _ _ _ 0 All (i + 1) ltac:(lia)) as (y & Ey & Hy).
    eapply comp_liftb; [exact Ex|]. eapply comp_liftb; [exact Ey|].
    assert (Lx := hasl_length _ _ _ Hx). assert (Ly := hasl_length _ _ _ Hy). rewrite zbl_length in Lx, Ly.
    eapply cmpl_assert_le_binary;
      [eapply hasl_ext; [exact X5|exact Hx]|eapply hasl_ext; [exact X5|exact Hy]|apply zbl_bits|apply zbl_bits|lia|lia| |].
    { apply chunk_room. left. lia. }
    rewrite Forall_forall in Fo. pose proof (max_bits_upper Hord) as Ub.
    assert (I1 : infield (nth i out 0)) by (apply Fo, nth_In; lia). assert (I2 : infield (nth (i + 1) out 0)) by (apply Fo, nth_In; lia).
    unfold infield in I1, I2. rewrite !zbl_val by lia.
    replace (i + 1)%nat with (S i) in * by lia. apply sorted_nth; [apply sort_items_sorted|lia]. }
  cbv beta. intros ? P5 s5 X5 G5 [-> _].
  assert (X15 : ext s1 s5) by (repeat (eapply ext_trans; [eassumption|]); apply ext_refl).
  assert (W5 := haswl_ext _ _ _ _ X15 W1). assert (Hv5 := hasl_ext _ _ _ _ X15 Hv1).
  assert (Nx : (nx s1 <= nx s5)%nat) by apply X15.
  eapply comp_bind.
  { eapply (comp_gens D) with (ks := ws) (P0 := P); [exact Q1| | | |].
    - intros k Hk. rewrite Ews in Hk. apply in_seq in Hk. lia.
    - exact (flat_deps_lt _ _ _ Hv5).
    - intros i k Hi Hk. rewrite Ews in Hk. apply in_seq in Hk. pose proof (flat_deps_lt _ _ _ Hv i Hi). lia.
    - intros v Hd Hn. rewrite (omap_eval Hp _ _ _ _ Hv5 Hd). cbn [obind]. fold out.
      assert (K : map (fun ix => nth (fst ix) ws 0%nat) (enumerate out) = ws)
        by (apply enumerate_keys; rewrite (F2len _ _ _ W1); reflexivity).
      destruct (ofold_sets (wt s5) (enumerate out) (fun ix => nth (fst ix) ws 0%nat)
        (fun v' ix => let! w := oindex ws (fst ix) in v_set w (snd ix) v')) with (v := v) as (v' & Ev' & Hv'); [| |rewrite K; exact Hn|].
      + intros [i x] v1 Hi. destruct (enumerate_In _ _ _ 0 Hi) as [Li ->]. cbn [fst snd].
        destruct (F2_oindex _ _ _ 0 W5 i Li) as (w & Ew & [Hw1 Hw2]). rewrite Ew. cbn [obind].
        assert (nth i ws 0%nat = w) as -> by (unfold oindex in Ew; destruct (nth_error ws i) eqn:En2; inversion Ew; subst; apply nth_error_nth, En2).
        rewrite Hw2. reflexivity.
      + rewrite K, Ews. apply seq_NoDup.
      + exists v'. split; [exact Ev'|]. rewrite K in Hv'. exact Hv'. }
  cbv beta. intros ? P6 s6 X6 G6 [-> ->]. apply comp_ret. split; [reflexivity|]. eapply hasl_ext; [|exact Ho]. exact X15.
Qed.

Lemma cmpl_sort_descending l vals P s : (4 <= max_bits)%nat -> l <> [] -> hasl s l vals ->
  comp D P s (sort_descending l) (done P (fun r s' => hasl s' r (rev (sort_items vals)))).
Proof using Hp H2.
  intros H4 Hl Hv. unfold sort_descending. cbind (apply cmpl_sort_ascending; eassumption).
  intros r P1 s1 X1 G1 [-> Hr]. apply comp_ret. split; [reflexivity|]. apply F2_rev, Hr.
Qed.

End Honest.

(** ** dishonest assignments: any rearrangement can be passed off as sorted *)
Lemma fs_sort_ascending l vals out s : (4 <= max_bits)%nat -> l <> [] -> hasl s l vals -> Permutation vals out ->
  csat s (sort_ascending l) (fun r s' => hasl s' r out).
Proof using Hp H2.
  intros H4 Hl Hv HP. unfold sort_ascending. cbv zeta.
  pose proof (hasl_length _ _ _ Hv) as Lv.
  assert (Lo : length out = length l) by (rewrite <- (Permutation_length HP); lia).
  assert (Fo : Forall infield out).
  { rewrite <- HP. clear - Hv Hp. induction Hv; constructor; auto. eapply (has_infield Hp); eassumption. }
  assert (E : exists n, length l = S n) by (destruct l; [congruence|eexists; reflexivity]). destruct E as [n En].
  pose proof (fs_wires Hp out Fo s) as CW. rewrite Lo in CW.
  eapply csat_bind; [exact CW|]. cbv beta. clear CW. intros ws s1 X1 G1 (Ews & N1 & W1).
  assert (Ho : hasl s1 (map e_wire ws) out) by (apply hasl_map_wire; assumption).
  assert (Hv1 := hasl_ext _ _ _ _ X1 Hv).
  eapply csat_bind; [apply csat_comp; [local|eapply (cmpl_assert_permutation Hp); [exact Hv1|exact Ho|exact HP]]|].
  cbv beta. intros ? s2 X2 G2 _.
  eapply csat_liftb; [unfold osub; rewrite En; reflexivity|]. rewrite ?En. replace (S n - 1)%nat with n by lia.
  assert (Ho2 := hasl_ext _ _ _ _ X2 Ho).
  eapply csat_bind; [apply csat_comp; [local|apply cmpl_split_all; apply hasl_firstn; exact Ho2]|].
  cbv beta. intros fs s3 X3 G3 Hfs.
  assert (Ho3 := hasl_ext _ _ _ _ X3 Ho2).
  assert (Lw : length (map e_wire ws) = S n) by (rewrite (hasl_length _ _ _ Ho3); lia).
  destruct (hasl_nth _ _ _ Ho3 n ltac:(lia)) as (lo & Elo & _ & Hlo).
  eapply csat_liftb; [exact Elo|].
  eapply csat_bind; [eapply (fs_split Hp H2); [exact H4|exact Hlo]|]. cbv beta. intros la s4 X4 G4 Hla.
  assert (All : Forall2 (fun r c => hasl s4 r (zbl c max_bits)) (fs ++ [la]) out).
  { rewrite (firstn_last out n 0) by lia. apply Forall2_app; [|constructor; [exact Hla|constructor]].
    eapply F2_impl; [|exact Hfs]. cbv beta. intros. eapply hasl_ext; eassumption. }
  eapply csat_bind.
  { apply csat_bmap with (R := fun (_ : nat) (_ : unit) (_ : st) => True); [auto|].
    intros i s5 Hi X5. apply in_seq in Hi.
    destruct (F2_oindex _ _ _ 0 All i ltac:(lia)) as (x & Ex & Hx).
    destruct (F2_oindex _ _ _ 0 All (i + 1) ltac:(lia)) as (y & Ey & Hy).
    eapply csat_liftb; [exact Ex|]. eapply csat_liftb; [exact Ey|].
    assert (Lx := hasl_length _ _ _ Hx). assert (Ly := hasl_length _ _ _ Hy). rewrite zbl_length in Lx, Ly.
    eapply (fs_assert_le_binary Hp H2);
      [eapply hasl_ext; [exact X5|exact Hx]|eapply hasl_ext; [exact X5|exact Hy]|apply zbl_bits|apply zbl_bits|lia|lia|].
    apply chunk_room. left. lia. }
  cbv beta. intros ? s5 X5 G5 _.
  assert (X15 : ext s1 s5) by (repeat (eapply ext_trans; [eassumption|]); apply ext_refl).
  eapply csat_bind; [apply csat_generator|]. cbv beta. intros ? s6 X6 G6 ->. apply csat_ret.
  eapply hasl_ext; [exact X15|exact Ho].
Qed.
Lemma fs_sort_descending l vals out s : (4 <= max_bits)%nat -> l <> [] -> hasl s l vals -> Permutation vals out ->
  csat s (sort_descending l) (fun r s' => hasl s' r out).
Proof using Hp H2.
  intros H4 Hl Hv HP. unfold sort_descending.
  eapply csat_bind; [eapply fs_sort_ascending with (out := rev out); [exact H4|exact Hl|exact Hv|]|].
  - rewrite HP. apply Permutation_rev.
  - cbv beta. intros r s1 X1 G1 Hr. apply csat_ret. rewrite <- (rev_involutive out). apply F2_rev, Hr.
Qed.

End Sort.
Global Hint Resolve mono_sort_ascending mono_sort_descending : mono.
Global Hint Resolve local_sort_ascending local_sort_descending : local.
