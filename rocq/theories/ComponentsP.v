(** The gadgets of the library are correct components. *)
From Coq Require Import ZArith List Bool Arith Lia Znumtheory Permutation.
From Verif Require Import Base FieldM FieldP ExprM BuilderM GadgetsM CryptoM CurveM WaksmanM Spec SpecCrypto SpecCurve ExprP BitsP MonoP LocalP SoundP
  CmpP GadgetSoundP HonestP CompleteP CmpCompleteP GadgetCompleteP EdwardsP WaksmanP RouteP CryptoP MatrixP SpongeP CurveP ArithP ProgramM ProgramP
  PropLib PropsBuilder LibraryM LibraryP.
Import ListNotations.
Open Scope Z_scope.

Section Values.
Context {F : Field}.
Lemma bits_of_zbl a n : bits_of a n = zbl a n.
Proof. unfold bits_of, zbl. apply map_ext. intro i. unfold zbit, truth, b2z. destruct (Z.testbit a (Z.of_nat i)); reflexivity. Qed.
Lemma bits_of_length a n : length (bits_of a n) = n.
Proof. rewrite bits_of_zbl. apply zbl_length. Qed.
Lemma bits_of_fits a n : fits (word n) (bits_of a n).
Proof. apply fits_word. split; [apply bits_of_length|]. rewrite bits_of_zbl. apply zbl_bits. Qed.
Lemma word_mod w r n z : length r = n -> bin_ok w r -> 0 <= z -> bin_val w r = z mod 2 ^ Z.of_nat n -> map (ev w) r = bits_of z n.
Proof.
  intros L B Hz E. apply bits_val_inj; [rewrite map_length, bits_of_length; exact L|rewrite Forall_map; exact B|rewrite bits_of_zbl; apply zbl_bits|].
  unfold bin_val in E. rewrite E, bits_of_zbl, zbl_val_mod by exact Hz. reflexivity.
Qed.
Lemma word_is w r n z : length r = n -> bin_ok w r -> bin_val w r = z -> map (ev w) r = bits_of z n.
Proof.
  intros L B E. pose proof (bits_val_bound (map (ev w) r)) as Bd. rewrite map_length, L in Bd. unfold bin_val in E. rewrite E in Bd.
  specialize (Bd ltac:(rewrite Forall_map; exact B)). apply word_mod; [exact L|exact B|lia|]. unfold bin_val. rewrite Z.mod_small by exact Bd. exact E.
Qed.
Lemma word_in w n es : fits (word n) (map (ev w) es) -> length es = n /\ bin_ok w es.
Proof. rewrite fits_word, map_length, Forall_map. auto. Qed.
Lemma bits_in n vs : fits (word n) vs -> length vs = n /\ Forall is_bit vs.
Proof. apply fits_word. Qed.
Lemma words_in w n m es : fits (word (n + m)) (map (ev w) es) ->
  length (firstn n es) = n /\ length (skipn n es) = m /\ bin_ok w (firstn n es) /\ bin_ok w (skipn n es).
Proof.
  intro H. apply word_in in H. destruct H as [L B]. rewrite firstn_length, skipn_length. unfold bin_ok in *.
  rewrite <- (firstn_skipn n es) in B. apply Forall_app in B. destruct B. repeat split; auto; lia.
Qed.
Lemma Forall2_cut {A C} (R : A -> C -> Prop) n : forall l m, Forall2 R l m -> Forall2 R (firstn n l) (firstn n m) /\ Forall2 R (skipn n l) (skipn n m).
Proof.
  induction n as [|n IH]; intros l m H; [split; [constructor|exact H]|]. destruct H as [|x y l m Hxy H]; [split; constructor|].
  cbn [firstn skipn]. destruct (IH _ _ H). split; [constructor|]; assumption.
Qed.
Lemma bits2_in n m vs : fits (word (n + m)) vs ->
  length (firstn n vs) = n /\ length (skipn n vs) = m /\ Forall is_bit (firstn n vs) /\ Forall is_bit (skipn n vs).
Proof.
  intro H. apply bits_in in H. destruct H as [L B]. rewrite firstn_length, skipn_length.
  rewrite <- (firstn_skipn n vs) in B. apply Forall_app in B. destruct B. repeat split; auto; lia.
Qed.

(** ** lists of words *)
Lemma cut_map {A C} (f : A -> C) ns : forall l, cut ns (map f l) = map (map f) (cut ns l).
Proof. induction ns as [|n ns IH]; intro l; cbn [cut map]; [reflexivity|]. rewrite firstn_map, skipn_map, IH. reflexivity. Qed.
Lemma cut_lengths {A} ns : forall l : list A, length l = total ns -> map (@length A) (cut ns l) = ns.
Proof.
  induction ns as [|n ns IH]; intros l L; cbn [cut map total fold_right] in *; [reflexivity|]. fold (total ns) in L.
  rewrite firstn_length, IH by (rewrite skipn_length; lia). f_equal. lia.
Qed.
Lemma cut_forall {A} (R : A -> Prop) ns : forall l, Forall R l -> Forall (Forall R) (cut ns l).
Proof.
  induction ns as [|n ns IH]; intros l H; cbn [cut]; constructor.
  - rewrite <- (firstn_skipn n l) in H. apply Forall_app in H. apply H.
  - apply IH. rewrite <- (firstn_skipn n l) in H. apply Forall_app in H. apply H.
Qed.
Lemma cut_2 {A C} (R : A -> C -> Prop) ns : forall l m, Forall2 R l m -> Forall2 (Forall2 R) (cut ns l) (cut ns m).
Proof. induction ns as [|n ns IH]; intros l m H; cbn [cut]; constructor; [|apply IH]; apply (Forall2_cut R n _ _ H). Qed.

Lemma max_sum_largest (ts : list binexpr) : max_sum ts = largest (map (@length expr) ts).
Proof.
  unfold max_sum. rewrite max_sum_acc, Z.add_0_l. unfold largest, addz. induction ts as [|t ts IH]; cbn [fold_right map]; [reflexivity|]. rewrite IH. reflexivity.
Qed.
Lemma max_len_longest (ts : list binexpr) : max_len ts = longest (map (@length expr) ts).
Proof.
  unfold max_len, longest. assert (G : forall m, fold_left (fun m (t : binexpr) => Nat.max m (length t)) ts m = Nat.max m (fold_right Nat.max 0%nat (map (@length expr) ts))).
  { induction ts as [|t ts IH]; intro m; cbn [fold_left fold_right map]; [lia|]. rewrite IH. lia. }
  rewrite G. reflexivity.
Qed.
Lemma size_zbits a : size a = zbits a.
Proof. unfold size, zbits. destruct (a <=? 0) eqn:E; [reflexivity|]. apply Z.leb_gt in E. pose proof (Z.log2_nonneg a). lia. Qed.
Lemma sum_vals_addz w (ts : list binexpr) : sum_vals w ts = addz (map bits_val (map (map (ev w)) ts)).
Proof. unfold sum_vals, addz. induction ts as [|t ts IH]; cbn [fold_right map]; [reflexivity|]. rewrite IH. reflexivity. Qed.
Lemma addz_nonneg ls : Forall (Forall is_bit) ls -> 0 <= addz (map bits_val ls).
Proof. intro H. unfold addz. induction H as [|l ls Hl _ IH]; cbn [fold_right map]; [lia|]. pose proof (bits_val_bound l Hl). lia. Qed.

Lemma same_items_spec a b : same_items a b = true <-> Permutation a b.
Proof.
  unfold same_items. rewrite forallb_forall, (Permutation_count_occ Z.eq_dec). split.
  - intros H x. destruct (in_dec Z.eq_dec x (a ++ b)) as [I|N]; [apply Nat.eqb_eq, H, I|].
    rewrite in_app_iff in N. rewrite (proj1 (count_occ_not_In Z.eq_dec a x)), (proj1 (count_occ_not_In Z.eq_dec b x)) by tauto. reflexivity.
  - intros H x _. apply Nat.eqb_eq, H.
Qed.
Lemma length_1 {A} (l : list A) : length l = 1%nat -> exists x, l = [x].
Proof. destruct l as [|x [|y l]]; cbn; intro; try lia. eauto. Qed.
Lemma length_2 {A} (l : list A) : length l = 2%nat -> exists x y, l = [x; y].
Proof. destruct l as [|x [|y [|z l]]]; cbn; intro; try lia. eauto. Qed.
Lemma fits1 w b (es : list expr) : fits [b] (map (ev w) es) -> exists x, es = [x].
Proof. intro H. apply fits_length in H. rewrite map_length in H. apply length_1. cbn in H. lia. Qed.
Lemma hasl1 s es a : hasl s es [a] -> exists x, es = [x] /\ has s x a.
Proof. intro H. inversion H as [|x ? es' ? Hx Hn]; subst. inversion Hn; subst. eauto. Qed.
Lemma hasl2 s es a b : hasl s es [a; b] -> exists x y, es = [x; y] /\ has s x a /\ has s y b.
Proof. intro H. inversion H as [|x ? es' ? Hx Hn]; subst. apply hasl1 in Hn. destruct Hn as (y & -> & Hy). eauto. Qed.

Lemma with1_inv {R} vs i (k : Z -> option R) r : with1 vs i k = Some r -> exists a, nth_error vs i = Some a /\ k a = Some r.
Proof. unfold with1. destruct (nth_error vs i); [eauto|discriminate]. Qed.
Lemma with2_inv {R} vs i j (k : Z -> Z -> option R) r : with2 vs i j k = Some r ->
  exists a b, nth_error vs i = Some a /\ nth_error vs j = Some b /\ k a b = Some r.
Proof. unfold with2. intro E. apply with1_inv in E. destruct E as (a & Ea & E). apply with1_inv in E. destruct E as (b & Eb & E). eauto. Qed.
Lemma fits_nth t vs i v : fits t vs -> isbit t i = true -> nth_error vs i = Some v -> is_bit v.
Proof.
  intros Ht Hi Hv. unfold isbit in Hi. destruct (nth_error t i) as [b|] eqn:Eb.
  - erewrite nth_error_nth in Hi by exact Eb. destruct (nth_error_2 _ _ _ _ _ Ht Eb) as (v' & Ev & Hb). rewrite Hv in Ev. injection Ev as <-. auto.
  - apply nth_error_None in Eb. rewrite nth_overflow in Hi by exact Eb. discriminate.
Qed.
Lemma app_same {A} (l m : list A) : l = l ++ m -> m = [].
Proof. intro E. rewrite <- (app_nil_r l) in E at 1. apply app_inv_head in E. auto. Qed.
Lemma fits_none b v : fits [b] [v] <-> (b = true -> is_bit v).
Proof. split; [intro H; inversion H; subst; auto|intro H; constructor; [exact H|constructor]]. Qed.
Lemma step_fits t o out vs new : check1 t o = Some (t ++ out) -> fits t vs -> step vs o = Some new -> fits out new.
Proof.
  intros C T E.
  destruct o; cbn [check1] in C; cbn [step] in E;
    repeat match goal with
    | H : with1 _ _ _ = Some _ |- _ => apply with1_inv in H; destruct H as (? & ? & H)
    | H : with2 _ _ _ _ = Some _ |- _ => apply with2_inv in H; destruct H as (? & ? & ? & ? & H)
    | H : when _ _ = Some _ |- _ => apply when_inv in H; destruct H as [? H]
    | H : Some _ = Some _ |- _ => injection H as H
    | H : _ ++ _ = _ ++ _ |- _ => apply app_inv_head in H
    | H : ?t = ?t ++ _ |- _ => apply app_same in H
    end; subst; try (apply fits_none; first [discriminate|intros _; apply truth_bit]); try solve [constructor].
  - apply fits_none. intro B. apply andb_prop in B. destruct B. destruct (_ =? 1); (eapply fits_nth; [exact T| |eassumption]; assumption).
  - assert (L : length (mark i t) = length (t ++ out)) by congruence. rewrite mark_length, app_length in L.
    destruct out; [constructor|cbn in L; lia].
Qed.
End Values.

Section Components.
Context {F : Field} (Hp : prime order) (H2 : 2 < order) (H4 : (4 <= max_bits)%nat).
Let Hord : 2 <= order := prime_ge2 Hp.

Lemma correct_op t o out : check1 t o = Some (t ++ out) -> correct (c_op t o out).
Proof using Hp H2 H4.
  intro C. constructor; cbn [c_op c_call c_run c_in c_out].
  - intro. apply mono_cop.
  - intro. apply local_cop.
  - intros w es Hw Ht. eapply sound_weaken; [eapply (snd_cop Hp w Hw); [exact C|]|].
    + split; [apply fits_length, Ht|]. intros i v Hi Hv. eapply fits_nth; eassumption.
    + intros r [E _]. exact E.
  - intros vs new T E. eapply step_fits; eassumption.
  - intros D P s es vs new Hs _ E. apply (cmpl_cop Hp H2 H4) with (vs := vs); assumption.
Qed.

Ltac comps := constructor; cbn [c_bit c_truth c_split c_split_bounded c_join c_sum c_sum_wrapping c_sum_checked c_wnot c_bitwise c_wless c_wgreater
  c_access c_permutation c_compress c_hash c_root c_member c_lanes c_sponge c_point c_call c_run c_in c_out].

Lemma correct_bit : correct c_bit.
Proof using Hp H2 H4.
  comps.
  - intros [|x [|y es]]; mono.
  - intros [|x [|y es]]; local.
  - intros w es Hw T. apply fits1 in T. destruct T as [x ->]. cbn [map].
    sbind (apply (snd_assert_boolean Hp w Hw)). intros r [_ E]. apply sound_ret. rewrite (proj2 (bitb_spec _) E). reflexivity.
  - intros [|a [|b vs]] new _ E; try discriminate. apply when_inv in E. destruct E as [E ->]. apply fits_none. intros _. apply bitb_spec, E.
  - intros D P s es [|a [|b vs]] new Hs _ E; try discriminate. apply when_inv in E. destruct E as [E ->]. apply bitb_spec in E.
    destruct (hasl1 _ _ _ Hs) as (x & -> & Hx).
    cbind (eapply (cmpl_assert_boolean Hp); eassumption). intros r P1 s1 X1 _ Q. carry. apply comp_ret. split; [apply Q|]. constructor; [exact Hx|constructor].
Qed.
Lemma correct_truth b : correct (c_truth b).
Proof using Hp H2 H4.
  comps.
  - intro. mono.
  - intro. local.
  - intros w es Hw T. apply sound_ret. cbn [map]. destruct b; [rewrite (ev_one Hord) by apply Hw|rewrite (ev_zero Hord) by apply Hw]; reflexivity.
  - intros vs new _ E. injection E as <-. apply fits_none. intros _. apply truth_bit.
  - intros D P s es vs new Hs _ E. injection E as <-. apply comp_hon. intros G _ _. apply comp_ret. split; [reflexivity|]. constructor; [|constructor].
    destruct b; [apply (has_one Hp), G|apply (has_const Hp s 0 G); unfold infield; pose proof Hord; lia].
Qed.
Lemma correct_split : correct c_split.
Proof using Hp H2 H4.
  comps.
  - intros [|x [|y es]]; mono.
  - intros [|x [|y es]]; local.
  - intros w es Hw T. apply fits1 in T. destruct T as [x ->]. cbn [map].
    eapply sound_weaken; [apply (snd_split Hp w Hw)|]. intros r (L & B & V). f_equal. symmetry. apply word_is; auto.
  - intros [|a [|b vs]] new _ E; try discriminate. injection E as <-. apply bits_of_fits.
  - intros D P s es [|a [|b vs]] new Hs _ E; try discriminate. injection E as <-. destruct (hasl1 _ _ _ Hs) as (x & -> & Hx).
    rewrite bits_of_zbl. apply (cmpl_split Hp H2); assumption.
Qed.
Lemma correct_split_bounded n : correct (c_split_bounded n).
Proof using Hp H2 H4.
  comps.
  - intros [|x [|y es]]; mono.
  - intros [|x [|y es]]; local.
  - intros w es Hw T. apply fits1 in T. destruct T as [x ->]. cbn [map].
    eapply sound_weaken; [apply (snd_split_bounded Hp w Hw)|]. intros r (N & L & B & V).
    pose proof (bits_val_bound (map (ev w) r)) as Bd. rewrite map_length, L in Bd. specialize (Bd ltac:(rewrite Forall_map; exact B)).
    fold (bin_val w r) in Bd. rewrite <- V in Bd. rewrite (proj2 (Nat.ltb_lt _ _) N), (proj2 (Z.ltb_lt _ _) (proj2 Bd)). cbn [when andb].
    f_equal. symmetry. apply word_is; auto.
  - intros [|a [|b vs]] new _ E; try discriminate. apply when_inv in E. destruct E as [_ ->]. apply bits_of_fits.
  - intros D P s es [|a [|b vs]] new Hs _ E; try discriminate. apply when_inv in E. destruct E as [E ->]. apply andb_prop in E. destruct E as [E1 E2].
    apply Nat.ltb_lt in E1. apply Z.ltb_lt in E2. destruct (hasl1 _ _ _ Hs) as (x & -> & Hx).
    rewrite bits_of_zbl. apply (cmpl_split_bounded Hp); assumption.
Qed.
Lemma correct_join n : correct (c_join n).
Proof using Hp H2 H4.
  comps; unfold out1.
  - intro. mono.
  - intro. local.
  - intros w es Hw T. apply word_in in T. destruct T as [L B].
    sbind (apply sound_lift; intros e E; exact (bin_join_inv Hord _ _ E)). intros e (Le & _ & V & _). apply sound_ret. rewrite L in Le.
    rewrite (proj2 (Z.leb_le _ _) Le). cbn [when map]. rewrite (V w). reflexivity.
  - intros vs new _ E. apply when_inv in E. destruct E as [_ ->]. apply fits_none. discriminate.
  - intros D P s es vs new Hs T E. apply when_inv in E. destruct E as [E ->]. apply Z.leb_le in E. apply bits_in in T. destruct T as [L B].
    destruct (hasl_join Hp s es vs Hs B) as (e & Ee & He); [rewrite (hasl_length _ _ _ Hs), L; exact E|].
    eapply comp_liftb; [exact Ee|]. apply comp_ret. split; [reflexivity|]. constructor; [exact He|constructor].
Qed.

Lemma sum_in w ns es : fits (word (total ns)) (map (ev w) es) ->
  Forall (bin_ok w) (cut ns es) /\ max_sum (cut ns es) = largest ns /\ max_len (cut ns es) = longest ns /\
  sum_vals w (cut ns es) = addz (map bits_val (cut ns (map (ev w) es))) /\ 0 <= sum_vals w (cut ns es).
Proof using.
  clear Hord. intro T. apply word_in in T. destruct T as [L B]. assert (Bs : Forall (bin_ok w) (cut ns es)) by (apply cut_forall, B).
  rewrite max_sum_largest, max_len_longest, (cut_lengths ns es L). repeat split; auto.
  - rewrite sum_vals_addz, cut_map. reflexivity.
  - rewrite sum_vals_addz. apply addz_nonneg. rewrite Forall_map. eapply Forall_impl; [|exact Bs]. intros t Ht. rewrite Forall_map. exact Ht.
Qed.
Lemma sum_has s ns es vs : hasl s es vs -> fits (word (total ns)) vs ->
  Forall2 (hasl s) (cut ns es) (cut ns vs) /\ Forall (Forall is_bit) (cut ns vs) /\ max_sum (cut ns es) = largest ns /\ max_len (cut ns es) = longest ns.
Proof using.
  clear Hord. intros Hs T. apply bits_in in T. destruct T as [L B]. pose proof (hasl_length _ _ _ Hs) as Le.
  rewrite max_sum_largest, max_len_longest, (cut_lengths ns es) by congruence. repeat split.
  - apply cut_2, Hs.
  - apply cut_forall, B.
Qed.
Lemma correct_sum ns : correct (c_sum ns).
Proof using Hp H2 H4.
  comps.
  - intro. mono.
  - intro. local.
  - intros w es Hw T. destruct (sum_in w ns es T) as (Bs & Ms & Ml & Sv & S0).
    eapply sound_weaken; [apply (snd_binary_summation Hp w Hw), Bs|]. cbv beta. rewrite Ms, <- size_zbits. intros r (L & Lm & B & V). rewrite L in Lm.
    rewrite (proj2 (Nat.ltb_lt _ _) Lm). cbn [when]. f_equal. symmetry. apply word_is; auto. congruence.
  - intros vs new _ E. apply when_inv in E. destruct E as [_ ->]. apply bits_of_fits.
  - intros D P s es vs new Hs T E. apply when_inv in E. destruct E as [E ->]. apply Nat.ltb_lt in E. destruct (sum_has s ns es vs Hs T) as (Hc & Bs & Ms & Ml).
    rewrite bits_of_zbl, size_zbits, <- Ms in *. apply (cmpl_binary_summation Hp); assumption.
Qed.
Lemma snd_both {A} w (m : B A) (Q R : A -> Prop) : sound w m Q -> sound w m R -> sound w m (fun a => Q a /\ R a).
Proof using. clear Hord. intros H1 H3 b a b' E S. split; [exact (H1 b a b' E S)|exact (H3 b a b' E S)]. Qed.
Lemma snd_any {A} w (m : B A) : sound w m (fun _ => True).
Proof using. clear Hord. intros b a b' E S. exact I. Qed.
Lemma correct_sum_wrapping ns : correct (c_sum_wrapping ns).
Proof using Hp H2 H4.
  comps.
  - intro. mono.
  - intro. local.
  - intros w es Hw T. destruct (sum_in w ns es T) as (Bs & Ms & Ml & Sv & S0).
    eapply sound_weaken; [apply snd_both; [apply (snd_bs_ignoring Hp w Hw), Bs|]|].
    + unfold binary_summation_ignoring_overflow. eapply sound_bind with (R := fun _ => (zbits (max_sum (cut ns es)) < max_bits)%nat);
        [apply (snd_binary_summation Hp w Hw), Bs|intro; mono|]. cbv beta. intros r (L & Lm & _). rewrite <- L. eapply sound_weaken; [apply snd_any|]. auto.
    + cbv beta. rewrite Ms, Ml, <- size_zbits. intros r [(L & B & V) Lm]. rewrite (proj2 (Nat.ltb_lt _ _) Lm). cbn [when]. f_equal. symmetry.
      apply word_mod; auto; congruence.
  - intros vs new _ E. apply when_inv in E. destruct E as [_ ->]. apply bits_of_fits.
  - intros D P s es vs new Hs T E. apply when_inv in E. destruct E as [E ->]. apply Nat.ltb_lt in E. destruct (sum_has s ns es vs Hs T) as (Hc & Bs & Ms & Ml).
    rewrite size_zbits, <- Ms in E. rewrite bits_of_zbl, <- Ml. apply (cmpl_bs_ignoring Hp); assumption.
Qed.
Lemma correct_sum_checked ns : correct (c_sum_checked ns).
Proof using Hp H2 H4.
  comps.
  - intro. mono.
  - intro. local.
  - intros w es Hw T. destruct (sum_in w ns es T) as (Bs & Ms & Ml & Sv & S0).
    eapply sound_weaken; [apply snd_both; [apply (snd_bs_asserting Hp w Hw), Bs|]|].
    + unfold binary_summation_asserting_no_overflow. eapply sound_bind with (R := fun _ => (zbits (max_sum (cut ns es)) < max_bits)%nat);
        [apply (snd_binary_summation Hp w Hw), Bs|intro; mono|]. cbv beta. intros r (L & Lm & _). rewrite <- L. eapply sound_weaken; [apply snd_any|]. auto.
    + cbv beta. rewrite Ms, Ml, <- size_zbits. intros r [(L & B & V & Lv) Lm]. rewrite Sv in *.
      rewrite (proj2 (Nat.ltb_lt _ _) Lm), (proj2 (Z.ltb_lt _ _) Lv). cbn [when andb]. f_equal. symmetry. apply word_is; auto.
  - intros vs new _ E. apply when_inv in E. destruct E as [_ ->]. apply bits_of_fits.
  - intros D P s es vs new Hs T E. apply when_inv in E. destruct E as [E ->]. apply andb_prop in E. destruct E as [E1 E2]. apply Nat.ltb_lt in E1. apply Z.ltb_lt in E2.
    destruct (sum_has s ns es vs Hs T) as (Hc & Bs & Ms & Ml). rewrite size_zbits, <- Ms in E1. rewrite bits_of_zbl, <- Ml in *.
    apply (cmpl_bs_asserting Hp); try assumption. apply le_trans with (2 := H4). repeat constructor.
Qed.
Lemma correct_wnot n : correct (c_wnot n).
Proof using Hp H2 H4.
  comps.
  - intro. mono.
  - intro. local.
  - intros w es Hw T. apply word_in in T. destruct T as [L B]. eapply sound_weaken; [apply (snd_bitwise_not Hp w Hw), B|]. cbv beta. rewrite L.
    intros r (Lr & Br & V). f_equal. symmetry. apply word_is; auto.
  - intros vs new _ E. injection E as <-. apply bits_of_fits.
  - intros D P s es vs new Hs T E. injection E as <-. apply bits_in in T. destruct T as [L B].
    replace (bits_of _ n) with (map (fun b => 1 - b) vs); [apply (cmpl_bitwise_not Hp); assumption|].
    assert (Bn : Forall is_bit (map (fun b => 1 - b) vs)) by (rewrite Forall_map; eapply Forall_impl; [|exact B]; intros a [->| ->]; [right|left]; reflexivity).
    apply bits_val_inj; [rewrite map_length, bits_of_length; exact L|exact Bn|rewrite bits_of_zbl; apply zbl_bits|].
    pose proof (bits_val_bound vs B). rewrite L in H. rewrite bits_val_compl, L, bits_of_zbl, zbl_val; [reflexivity|lia].
Qed.
Lemma correct_bitwise n op (f zop : Z -> Z -> Z) :
  (forall x y, mono (bitwise2 op x y)) -> (forall x y, local (bitwise2 op x y)) ->
  (forall w x y, wf_witness w -> bin_ok w x -> bin_ok w y -> sound w (bitwise2 op x y) 
    (fun r => length x = length y /\ length r = length x /\ bin_ok w r /\ bin_val w r = zop (bin_val w x) (bin_val w y))) ->
  (forall D P s x y a b, has s x a -> has s y b -> is_bit a -> is_bit b -> comp D P s (op x y) (done P (fun r s' => has s' r (f a b)))) ->
  (forall a b, is_bit a -> is_bit b -> is_bit (f a b)) ->
  (forall xs ys, length xs = length ys -> Forall is_bit xs -> Forall is_bit ys ->
    bits_val (map (fun p => f (fst p) (snd p)) (combine xs ys)) = zop (bits_val xs) (bits_val ys)) ->
  correct (c_bitwise n (bitwise2 op) zop).
Proof using Hp H2 H4.
  intros M Lc S K Fb V. comps; auto.
  - intros w es Hw T. apply words_in in T. destruct T as (L1 & L2 & B1 & B2). eapply sound_weaken; [apply (S w); assumption|]. cbv beta.
    intros r (_ & Lr & Br & Vr). f_equal. symmetry. rewrite L1 in Lr. apply word_is; auto. rewrite Vr. unfold bin_val. rewrite firstn_map, skipn_map. reflexivity.
  - intros vs new _ E. injection E as <-. apply bits_of_fits.
  - intros D P s es vs new Hs T E. injection E as <-. apply bits2_in in T. destruct T as (L1 & L2 & B1 & B2).
    destruct (Forall2_cut _ n _ _ Hs) as [Ha Hb].
    replace (bits_of _ n) with (map (fun p => f (fst p) (snd p)) (combine (firstn n vs) (skipn n vs))).
    + apply cmpl_bitwise2; auto. rewrite (hasl_length _ _ _ Ha), (hasl_length _ _ _ Hb). congruence.
    + assert (Br : Forall is_bit (map (fun p => f (fst p) (snd p)) (combine (firstn n vs) (skipn n vs)))).
      { rewrite Forall_map, Forall_forall. intros [a b] I. rewrite Forall_forall in B1, B2. apply Fb; [apply B1; eapply in_combine_l|apply B2; eapply in_combine_r]; exact I. }
      assert (Lr : length (map (fun p => f (fst p) (snd p)) (combine (firstn n vs) (skipn n vs))) = n) by (rewrite map_length, combine_length; lia).
      pose proof (bits_val_bound _ Br) as Bd. rewrite Lr, V in Bd by congruence.
      apply bits_val_inj; [rewrite bits_of_length; exact Lr|exact Br|rewrite bits_of_zbl; apply zbl_bits|].
      rewrite V by congruence. rewrite bits_of_zbl, zbl_val; [reflexivity|lia].
Qed.

Lemma correct_wand n : correct (c_bitwise n bitwise_and Z.land).
Proof using Hp H2 H4.
  apply correct_bitwise with (f := Z.mul); try solve [intros; mono]; try solve [intros; local].
  - intros w x y Hw. apply (snd_bitwise_and Hp w Hw).
  - intros D P s x y a b Ha Hb Ba Bb. apply (cmpl_and Hp); assumption.
  - intros a b [->| ->] [->| ->]; [left|left|left|right]; reflexivity.
  - intros xs ys. apply bits_val_zop with (bop := andb); [intros; apply Z.land_spec|intros; apply Z.land_nonneg; auto|intros [] []; reflexivity].
Qed.
Lemma correct_wor n : correct (c_bitwise n bitwise_or Z.lor).
Proof using Hp H2 H4.
  apply correct_bitwise with (f := Z.max); try solve [intros; mono]; try solve [intros; local].
  - intros w x y Hw. apply (snd_bitwise_or Hp w Hw).
  - intros D P s x y a b Ha Hb Ba Bb. apply (cmpl_or Hp); assumption.
  - intros a b [->| ->] [->| ->]; [left|right|right|right]; reflexivity.
  - intros xs ys. apply bits_val_zop with (bop := orb); [intros; apply Z.lor_spec|intros; apply Z.lor_nonneg; auto|intros [] []; reflexivity].
Qed.
Lemma correct_wxor n : correct (c_bitwise n bitwise_xor Z.lxor).
Proof using Hp H2 H4.
  apply correct_bitwise with (f := fun a b => if a =? b then 0 else 1); try solve [intros; mono]; try solve [intros; local].
  - intros w x y Hw. apply (snd_bitwise_xor Hp w Hw).
  - intros D P s x y a b Ha Hb Ba Bb. apply (cmpl_xor Hp H2); assumption.
  - intros a b [->| ->] [->| ->]; [left|right|right|left]; reflexivity.
  - intros xs ys. apply bits_val_zop with (f := fun a b => if a =? b then 0 else 1) (bop := xorb); [intros; apply Z.lxor_spec|intros; apply Z.lxor_nonneg; tauto|intros [] []; reflexivity].
Qed.

Lemma correct_wless n : (0 < n)%nat -> (S (cmp_chunk_bits n) < max_bits)%nat -> correct (c_wless n).
Proof using Hp H2 H4.
  intros N Cn. comps; unfold out0.
  - intro. mono.
  - intro. local.
  - intros w es Hw T. apply words_in in T. destruct T as (L1 & L2 & B1 & B2). sbind (apply (snd_assert_lt_binary Hp w Hw); assumption).
    intros _ [_ V]. apply sound_ret. rewrite firstn_map, skipn_map. fold (bin_val w (firstn n es)) (bin_val w (skipn n es)).
    rewrite (proj2 (Z.ltb_lt _ _) V). reflexivity.
  - intros vs new _ E. apply when_inv in E. destruct E as [_ ->]. constructor.
  - intros D P s es vs new Hs T E. apply when_inv in E. destruct E as [E ->]. apply Z.ltb_lt in E. apply bits2_in in T. destruct T as (L1 & L2 & B1 & B2).
    destruct (Forall2_cut _ n _ _ Hs) as [Ha Hb]. pose proof (hasl_length _ _ _ Ha) as La. pose proof (hasl_length _ _ _ Hb) as Lb.
    cbind (eapply (cmpl_assert_lt_binary Hp H2); [exact Ha|exact Hb|exact B1|exact B2|congruence| | |exact E]; rewrite La, L1; assumption).
    intros _ P1 s1 _ _ [-> _]. apply comp_ret. split; [reflexivity|constructor].
Qed.
Lemma correct_wgreater n : (0 < n)%nat -> (S (cmp_chunk_bits n) < max_bits)%nat -> correct (c_wgreater n).
Proof using Hp H2 H4.
  intros N Cn. comps; unfold out0.
  - intro. mono.
  - intro. local.
  - intros w es Hw T. apply words_in in T. destruct T as (L1 & L2 & B1 & B2). sbind (apply (snd_assert_gt_binary Hp w Hw); assumption).
    intros _ [_ V]. apply sound_ret. rewrite firstn_map, skipn_map. fold (bin_val w (firstn n es)) (bin_val w (skipn n es)).
    rewrite (proj2 (Z.ltb_lt _ _) V). reflexivity.
  - intros vs new _ E. apply when_inv in E. destruct E as [_ ->]. constructor.
  - intros D P s es vs new Hs T E. apply when_inv in E. destruct E as [E ->]. apply bits2_in in T. destruct T as (L1 & L2 & B1 & B2).
    destruct (Forall2_cut _ n _ _ Hs) as [Ha Hb]. pose proof (hasl_length _ _ _ Ha) as La. pose proof (hasl_length _ _ _ Hb) as Lb.
    assert (K : comp D P s (assert_gt_binary (firstn n es) (skipn n es)) (done P (fun _ _ => True))).
    { unfold assert_gt_binary, gt_binary.
      cbind (eapply (cmpl_cmp_binary Hp H2) with (less := false) (strict := true); [exact Ha|exact Hb|exact B1|exact B2|congruence| |]; rewrite La, L1; assumption).
      intros r P1 s1 _ _ [-> Hr]. unfold cmp_spec in Hr. rewrite E in Hr. apply cmpl_same, (cmpl_assert_true Hp). exact Hr. }
    cbind (exact K). intros _ P1 s1 _ _ [-> _]. apply comp_ret. split; [reflexivity|constructor].
Qed.

Lemma correct_access n : (1 <= n)%nat -> (index_bits n < max_bits)%nat -> correct (c_access n).
Proof using Hp H2 H4.
  intros N In. comps; unfold out1.
  - intros [|i es]; mono.
  - intros [|i es]; local.
  - intros w es Hw T. apply fits_length in T. unfold fields in T. cbn [length] in T. rewrite repeat_length, map_length in T.
    destruct es as [|i items]; cbn [length] in T; [lia|]. assert (L : length items = n) by lia. cbn [map].
    sbind (apply (snd_random_access Hp w Hw)). rewrite L. intros r (_ & Li & V). apply sound_ret.
    rewrite (proj2 (Z.ltb_lt _ _) Li). cbn [when map]. rewrite V. do 2 f_equal.
    rewrite <- (map_nth (ev w)). f_equal.
  - intros [|i vs] new _ E; try discriminate. apply when_inv in E. destruct E as [_ ->]. apply fits_none. discriminate.
  - intros D P s es [|i vs] new Hs T E; try discriminate. apply when_inv in E. destruct E as [E ->]. apply Z.ltb_lt in E.
    apply fits_length in T. unfold fields in T. cbn [length] in T. rewrite repeat_length in T.
    inversion Hs as [|x ? items ? Hx Hi]; subst. assert (L : length items = n) by (rewrite (hasl_length _ _ _ Hi); lia).
    cbind (apply (cmpl_random_access Hp); [exact Hi|exact Hx|lia|rewrite L; exact In|rewrite L; exact E]).
    rewrite L. intros r P1 s1 _ _ [-> Hr]. apply comp_ret. split; [reflexivity|]. constructor; [exact Hr|constructor].
Qed.
Lemma correct_permutation n : correct (c_permutation n).
Proof using Hp H2 H4.
  comps; unfold out0.
  - intro. apply mono_bind; [apply mono_assert_permutation|intro; apply mono_ret].
  - intro. apply local_bind; [apply local_assert_permutation|intro; apply local_ret].
  - intros w es Hw T. eapply sound_bind; [apply (snd_assert_permutation Hp w Hw)|intro; mono|]. intros _ [_ Pm]. apply sound_ret.
    rewrite firstn_map, skipn_map, (proj2 (same_items_spec _ _) Pm). reflexivity.
  - intros vs new _ E. apply when_inv in E. destruct E as [_ ->]. constructor.
  - intros D P s es vs new Hs T E. apply when_inv in E. destruct E as [E ->]. apply same_items_spec in E.
    destruct (Forall2_cut _ n _ _ Hs) as [Ha Hb].
    cbind (eapply (cmpl_assert_permutation Hp); eassumption). intros _ P1 s1 _ _ [-> _]. apply comp_ret. split; [reflexivity|constructor].
Qed.

Lemma correct_compress m H : computes2 m H -> completes2 m H -> (forall x y, local (m x y)) -> correct (c_compress m H).
Proof using Hp H2 H4.
  intros C1 C2 Lc. pose proof (proj1 C1) as Mc. comps; unfold out1.
  - intros [|x [|y [|z es]]]; try (apply mono_bind; [apply Mc|intro; apply mono_ret]); mono.
  - intros [|x [|y [|z es]]]; try (apply local_bind; [apply Lc|intro; apply local_ret]); local.
  - intros w es Hw T. apply fits_length in T. rewrite map_length in T. destruct (length_2 es) as (x & y & ->); [cbn in T; lia|]. cbn [map].
    eapply sound_bind; [apply (computes2_snd _ _ _ x y Hw C1)|intro; mono|]. intros r V. apply sound_ret. cbn [map]. rewrite V. reflexivity.
  - intros [|a [|b [|c vs]]] new _ E; try discriminate. injection E as <-. apply fits_none. discriminate.
  - intros D P s es [|a [|b [|c vs]]] new Hs T E; try discriminate. injection E as <-. destruct (hasl2 _ _ _ _ Hs) as (x & y & -> & Hx & Hy).
    cbind (apply C2; eassumption). intros r P1 s1 _ _ [-> Hr]. apply comp_ret. split; [reflexivity|]. constructor; [exact Hr|constructor].
Qed.
Lemma correct_hash m H iv n : infield iv -> computes2 m H -> completes2 m H -> (forall x y, local (m x y)) -> correct (c_hash m H iv n).
Proof using Hp H2 H4.
  intros Iv C1 C2 Lc. pose proof (proj1 C1) as Mc. comps; unfold out1.
  - intro. apply mono_bind; [apply mono_merkle_damgard, Mc|intro; apply mono_ret].
  - intro. apply local_bind; [|intro; apply local_ret]. unfold merkle_damgard; repeat first [apply Lc|local_step].
  - intros w es Hw T. apply fits_fields in T. rewrite map_length in T. eapply sound_bind; [apply (snd_merkle_damgard Hp w Hw iv m H); assumption|intro; mono|].
    rewrite T. intros r [Lt V]. apply sound_ret. rewrite (proj2 (Z.ltb_lt _ _) Lt). cbn [map when]. rewrite V. reflexivity.
  - intros vs new _ E. apply when_inv in E. destruct E as [_ ->]. apply fits_none. discriminate.
  - intros D P s es vs new Hs T E. apply when_inv in E. destruct E as [E ->]. apply Z.ltb_lt in E. apply fits_fields in T. rewrite <- T, <- (hasl_length _ _ _ Hs) in E.
    cbind (eapply (cmpl_merkle_damgard Hp); eassumption). intros r P1 s1 _ _ [-> Hr]. apply comp_ret. split; [reflexivity|]. constructor; [exact Hr|constructor].
Qed.
Lemma path_in w n r : fits (word n ++ fields n) (map (ev w) r) ->
  length (firstn n r) = n /\ length (skipn n r) = n /\ bin_ok w (firstn n r).
Proof using.
  clear Hord H4 H2. intro T. apply fits_app_inv in T. assert (Lw : length (word n) = n) by apply repeat_length. rewrite Lw, firstn_map, skipn_map in T. destruct T as [T1 T2].
  apply word_in in T1. apply fits_fields in T2. rewrite map_length in T2. destruct T1. auto.
Qed.
Lemma path_has n s r vs : fits (word n ++ fields n) vs -> hasl s r vs ->
  length (firstn n r) = n /\ length (skipn n r) = n /\ Forall is_bit (firstn n vs) /\ hasl s (firstn n r) (firstn n vs) /\ hasl s (skipn n r) (skipn n vs).
Proof using.
  clear Hord H4 H2. intros T Hs. apply fits_app_inv in T. assert (Lw : length (word n) = n) by apply repeat_length. rewrite Lw in T. destruct T as [T1 T2].
  apply bits_in in T1. apply fits_fields in T2. destruct (Forall2_cut _ n _ _ Hs) as [Ha Hb].
  rewrite (hasl_length _ _ _ Ha), (hasl_length _ _ _ Hb). destruct T1. auto.
Qed.
Lemma path_new_ok (a : binexpr) b : length a = length b -> merkle_path_new a b = Ok (mkPath a b).
Proof using. clear Hord H4 H2. intro E. unfold merkle_path_new. rewrite E, Nat.eqb_refl. reflexivity. Qed.
Lemma correct_root m H n : computes2 m H -> completes2 m H -> (forall x y, local (m x y)) -> correct (c_root m H n).
Proof using Hp H2 H4.
  intros C1 C2 Lc. pose proof (proj1 C1) as Mc. comps; unfold out1.
  - intros [|x es]; [mono|]. apply mono_bind; [apply mono_lift|intro]. apply mono_bind; [apply mono_merkle_root, Mc|intro; apply mono_ret].
  - intros [|x es]; [local|]. apply local_bind; [apply local_lift|intro]. apply local_bind; [|intro; apply local_ret].
    unfold merkle_tree_root, merkle_tree_step; repeat first [apply Lc|local_step].
  - intros w [|x es] Hw T; [inversion T|]. cbn [map] in T. inversion T as [|? ? ? ? _ T']; subst. destruct (path_in w n es T') as (L1 & L2 & B).
    rewrite path_new_ok by congruence. cbn [map].
    eapply sound_bind with (Q := fun p => p = mkPath (firstn n es) (skipn n es)); [apply sound_lift; intros a E; congruence| |].
    { intro. apply mono_bind; [apply mono_merkle_root, Mc|intro; apply mono_ret]. }
    intros p ->. eapply sound_bind; [apply (snd_merkle_root Hp w Hw m H); assumption|intro; mono|]. cbn [prefix siblings].
    intros r V. apply sound_ret. cbn [map]. rewrite V, firstn_map, skipn_map. reflexivity.
  - intros [|a vs] new _ E; try discriminate. injection E as <-. apply fits_none. discriminate.
  - intros D P s es [|a vs] new Hs T E; try discriminate. injection E as <-. inversion Hs as [|x ? r ? Hx Hr]; subst. inversion T as [|? ? ? ? _ T']; subst.
    destruct (path_has n s r vs T' Hr) as (L1 & L2 & B & Ha & Hb). eapply comp_liftb; [apply path_new_ok; congruence|].
    cbind (eapply (cmpl_merkle_root Hp) with (path := mkPath (firstn n r) (skipn n r)); eassumption).
    intros y P1 s1 _ _ [-> Hy]. apply comp_ret. split; [reflexivity|]. constructor; [exact Hy|constructor].
Qed.
Lemma correct_member m H n : computes2 m H -> completes2 m H -> (forall x y, local (m x y)) -> correct (c_member m H n).
Proof using Hp H2 H4.
  intros C1 C2 Lc. pose proof (proj1 C1) as Mc.
  assert (Mm : forall l r p, mono (assert_merkle_tree_membership m l r p)).
  { intros. unfold assert_merkle_tree_membership. apply mono_bind; [apply mono_merkle_root, Mc|intro; mono]. }
  comps; unfold out0.
  - intros [|x [|y es]]; mono.
  - intros [|x [|y es]]; [local|local|]. apply local_bind; [apply local_lift|intro]. apply local_bind; [|intro; apply local_ret].
    unfold assert_merkle_tree_membership, merkle_tree_root, merkle_tree_step; repeat first [apply Lc|local_step].
  - intros w [|x [|y es]] Hw T; [inversion T|inversion T as [|? ? ? ? _ T']; inversion T'|]. cbn [map] in T. inversion T as [|? ? ? ? _ T1]; subst.
    inversion T1 as [|? ? ? ? _ T']; subst. destruct (path_in w n es T') as (L1 & L2 & B).
    rewrite path_new_ok by congruence. cbn [map].
    eapply sound_bind with (Q := fun p => p = mkPath (firstn n es) (skipn n es)); [apply sound_lift; intros a E; congruence| |].
    { intro. apply mono_bind; [apply Mm|intro; apply mono_ret]. }
    intros p ->. eapply sound_bind; [apply (snd_merkle_membership Hp w Hw m H); assumption|intro; mono|]. cbn [prefix siblings].
    intros _ V. apply sound_ret. rewrite firstn_map, skipn_map, <- V, Z.eqb_refl. reflexivity.
  - intros [|a [|b vs]] new _ E; try discriminate. apply when_inv in E. destruct E as [_ ->]. constructor.
  - intros D P s es [|a [|b vs]] new Hs T E; try discriminate. apply when_inv in E. destruct E as [E ->]. apply Z.eqb_eq in E.
    inversion Hs as [|x ? es' ? Hx Hr']; subst. inversion Hr' as [|y ? r ? Hy Hr]; subst.
    inversion T as [|? ? ? ? _ T1]; subst. inversion T1 as [|? ? ? ? _ T']; subst.
    destruct (path_has n s r vs T' Hr) as (L1 & L2 & B & Ha & Hb). eapply comp_liftb; [apply path_new_ok; congruence|].
    cbind (eapply (cmpl_merkle_membership Hp) with (path := mkPath (firstn n r) (skipn n r)); eassumption).
    intros _ P1 s1 _ _ [-> _]. apply comp_ret. split; [reflexivity|constructor].
Qed.

Lemma correct_lanes m n f : computesl m n f -> completesl m n f -> (forall xs, local (m xs)) -> (forall l, length l = n -> length (f l) = n) ->
  correct (c_lanes m n f).
Proof using Hp H2 H4.
  intros C1 C2 Lc Lf. comps.
  - apply C1.
  - exact Lc.
  - intros w es Hw T. apply fits_fields in T. rewrite map_length in T. eapply sound_weaken; [apply (computesl_snd m n f w es Hw C1 T)|]. cbv beta. congruence.
  - intros vs new T E. injection E as <-. apply fits_fields. apply fits_fields in T. auto.
  - intros D P s es vs new Hs T E. injection E as <-. apply fits_fields in T. apply C2; [rewrite (hasl_length _ _ _ Hs); exact T|exact Hs].
Qed.
Lemma correct_sponge sp p n outputs : (0 < bitrate sp)%nat -> computesl (mp_permute (sp_perm sp)) (bitrate sp + capacity sp) p ->
  completesl (mp_permute (sp_perm sp)) (bitrate sp + capacity sp) p -> (forall xs, local (mp_permute (sp_perm sp) xs)) ->
  (forall l, length l = (bitrate sp + capacity sp)%nat -> length (p l) = (bitrate sp + capacity sp)%nat) ->
  correct (c_sponge sp p n outputs).
Proof using Hp H2 H4.
  intros Hr C1 C2 Lc Lp. comps.
  - intro xs. pose proof (proj1 C1) as M1. unfold sponge_evaluate;
      repeat first [apply mono_sponge_step; exact M1|apply mono_sponge_squeeze; exact M1|mono_step].
  - intro xs. unfold sponge_evaluate;
      repeat first [apply local_sponge_step; exact Lc|apply local_sponge_squeeze; exact Lc|local_step].
  - intros w es Hw T. eapply sound_weaken; [apply (snd_sponge Hp sp p); eauto|]. cbv beta. intros r [_ V]. rewrite V. reflexivity.
  - intros vs new T E. injection E as <-. apply fits_fields. apply sponge_fun_length; assumption.
  - intros D P s es vs new Hs T E. injection E as <-. apply (cmpl_sponge Hp); auto.
Qed.
Lemma correct_point C : correct (c_point C).
Proof using Hp H2 H4.
  comps; unfold out0.
  - intros [|x [|y [|z es]]]; mono.
  - intros [|x [|y [|z es]]]; local.
  - intros w es Hw T. apply fits_length in T. rewrite map_length in T. destruct (length_2 es) as (x & y & ->); [cbn in T; lia|]. cbn [map].
    sbind (apply (snd_ed_expr_new Hp w Hw)). intros r [_ [_ V]]. apply sound_ret. unfold on_curve_b. cbn [fst snd] in V. rewrite V, Z.eqb_refl. reflexivity.
  - intros [|a [|b [|c vs]]] new _ E; try discriminate. apply when_inv in E. destruct E as [_ ->]. constructor.
  - intros D P s es [|a [|b [|c vs]]] new Hs T E; try discriminate. apply when_inv in E. destruct E as [E ->]. apply Z.eqb_eq in E.
    destruct (hasl2 _ _ _ _ Hs) as (x & y & -> & Hx & Hy).
    cbind (eapply (cmpl_ed_expr_new Hp) with (P := (a, b)); [exact Hx|exact Hy|]; split; [split; eapply (has_infield Hp); eassumption|exact E]).
    intros r P1 s1 _ _ [-> _]. apply comp_ret. split; [reflexivity|constructor].
Qed.
End Components.
