(** Completeness of the comparison gadgets. *)
From Coq Require Import ZArith List Bool Arith Lia Znumtheory Permutation.
From Verif Require Import Base FieldM FieldP ExprM BuilderM GadgetsM Spec ExprP BitsP MonoP SoundP CmpP HonestP CompleteP.
Import ListNotations.
Open Scope Z_scope.

(** The comparison a call is asked to compute. *)
Definition cmp_spec (less strict : bool) (X Y : Z) : bool :=
  match less, strict with
  | true, true => X <? Y
  | true, false => X <=? Y
  | false, true => Y <? X
  | false, false => Y <=? X
  end.

(** The honest mask: it marks the most significant chunk that differs. *)
Fixpoint hmask (xs ys : list Z) : list Z * bool :=
  match xs, ys with
  | x :: xs', y :: ys' =>
    let '(m, seen) := hmask xs' ys' in
    (b2z (negb (x =? y) && negb seen) :: m, seen || negb (x =? y))
  | _, _ => ([], false)
  end.

Lemma hmask_length xs ys : length xs = length ys -> length (fst (hmask xs ys)) = length xs.
Proof.
  revert ys. induction xs as [|x xs IH]; intros [|y ys] L; simpl in *; auto; try discriminate.
  specialize (IH ys ltac:(lia)). destruct (hmask xs ys) as [m seen]. simpl in *. lia.
Qed.

Lemma hmask_bits xs ys : Forall is_bit (fst (hmask xs ys)).
Proof.
  revert ys. induction xs as [|x xs IH]; intros [|y ys]; simpl; try constructor.
  specialize (IH ys). destruct (hmask xs ys) as [m seen]. simpl in *. constructor; auto.
  destruct (negb (x =? y) && negb seen); [right|left]; reflexivity.
Qed.

Lemma hmask_spec xs ys : length xs = length ys ->
  let m := fst (hmask xs ys) in let seen := snd (hmask xs ys) in
  (seen = false /\ xs = ys /\ forall i, nth i m 0 = 0) \/
  (seen = true /\ exists j, (j < length xs)%nat /\ nth j xs 0 <> nth j ys 0 /\
     (forall i, (j < i < length xs)%nat -> nth i xs 0 = nth i ys 0) /\
     nth j m 0 = 1 /\ forall i, i <> j -> nth i m 0 = 0).
Proof.
  revert ys. induction xs as [|x xs IH]; intros [|y ys] L; simpl in *; try discriminate.
  - left. repeat split. intros [|]; reflexivity.
  - specialize (IH ys ltac:(lia)). destruct (hmask xs ys) as [m seen]. simpl in *.
    destruct IH as [(-> & -> & Hz)|(-> & j & Hj & Hne & Hup & H1 & H0)].
    + destruct (Z.eqb_spec x y) as [->|N]; simpl.
      * left. repeat split. intros [|i]; auto.
      * right. split; auto. exists 0%nat. repeat split; auto; [lia|intros [|i] Hi; [lia|reflexivity]|].
        intros [|i] Hi; [lia|apply Hz].
    + right. split; [reflexivity|]. exists (S j). repeat split; auto; [lia| |].
      * intros [|i] Hi; [lia|]. apply Hup. lia.
      * intros [|i] Hi; [rewrite andb_false_r; reflexivity|]. apply H0. lia.
Qed.

Section CmpComplete.
Context {F : Field} (Hp : prime order) (H2 : 2 < order).
Context (D : nat -> Prop).
Let Hord : 2 <= order := prime_ge2 Hp.

Lemma hasl_nth s es cs : hasl s es cs -> forall i, (i < length es)%nat ->
  exists e, oindex es i = Ok e /\ In e es /\ has s e (nth i cs 0).
Proof.
  induction 1 as [|e c es cs H _ IH]; intros i Hi; simpl in *; [lia|].
  destruct i as [|i].
  - exists e. auto.
  - destruct (IH i ltac:(lia)) as (e' & E & I & He). exists e'. auto.
Qed.

Lemma hasl_length s es cs : hasl s es cs -> length es = length cs.
Proof. induction 1; simpl; auto. Qed.

Lemma hasl_bin_val s es cs : hasl s es cs -> bin_val (wt s) es = bits_val cs.
Proof. intro H. unfold bin_val. apply hasl_map_ev in H. destruct H as [<- _]. reflexivity. Qed.

Lemma hasl_bin_ok s es cs : hasl s es cs -> Forall is_bit cs -> bin_ok (wt s) es.
Proof.
  intros H. unfold bin_ok. induction H as [|e c es cs [_ E] _ IH]; intro Hb; constructor; inversion Hb; subst; auto.
Qed.

Lemma bin_deps_In x k : In k (bin_deps x) <-> exists e, In e x /\ In k (e_deps e).
Proof.
  unfold bin_deps.
  assert (G : forall l (m : list (nat * unit)), In k (map fst (fold_left (fun s w => m_insert w tt s) l m)) <-> In k (map fst m) \/ In k l).
  { induction l as [|a l IH]; intro m; simpl; [tauto|]. rewrite IH.
    assert (In k (map fst (m_insert a tt m)) <-> k = a \/ In k (map fst m)) as ->.
    { unfold m_insert. rewrite m_alter_keys. tauto. }
    firstorder. }
  rewrite G, in_flat_map. simpl. tauto.
Qed.

Lemma bin_deps_over x : Forall (over (fun k => In k (bin_deps x))) x.
Proof. apply Forall_forall. intros e He k Hk. apply bin_deps_In. eauto. Qed.

Lemma bin_deps_lt s x l : hasl s x l -> forall i, In i (bin_deps x) -> (i < nx s)%nat.
Proof.
  intros H i Hi. apply bin_deps_In in Hi. destruct Hi as (e & He & Hi).
  apply hasl_map_ev in H. destruct H as [_ H]. rewrite Forall_forall in H. exact (H e He i Hi).
Qed.

Lemma pow2_le_order c : (c < max_bits)%nat -> 2 ^ Z.of_nat c <= order.
Proof using Hp. intro H. pose proof (pow2_lt_order Hord c H). lia. Qed.

(** joining chunks succeeds *)
Lemma chunk_ok c : (0 < c < max_bits)%nat -> forall bits, exists es,
  (let! cs := bin_chunks bits c in omap bin_join cs) = Ok es /\
  forall P, Forall (over P) bits -> Forall (over P) es.
Proof using Hp.
  intros Hc bits. unfold bin_chunks, chunks. destruct (Nat.eqb_spec c 0); [lia|]. simpl.
  assert (G : forall fuel l, exists es, omap bin_join (chunks_fuel fuel c l) = Ok es /\
              forall P, Forall (over P) l -> Forall (over P) es).
  { induction fuel as [|fuel IH]; intro l.
    - exists []. split; [reflexivity|constructor].
    - destruct l as [|a l']; [exists []; split; [reflexivity|constructor]|]. set (l := a :: l') in *.
      change (chunks_fuel (S fuel) c l) with (firstn c l :: chunks_fuel fuel c (skipn c l)).
      destruct (IH (skipn c l)) as (es & He & Ho).
      destruct (bin_join_ok Hord (firstn c l)) as (e & Ee).
      { pose proof (firstn_le_length c l). pose proof (pow2_le (length (firstn c l)) c H).
        pose proof (pow2_le_order c ltac:(lia)). lia. }
      exists (e :: es). cbn [omap]. rewrite Ee, He. split; [reflexivity|].
      intros P HP. rewrite <- (firstn_skipn c l) in HP. apply Forall_app in HP. destruct HP as [P1 P2].
      constructor; [|apply Ho, P2]. apply (bin_join_inv Hord) in Ee. destruct Ee as (_ & _ & _ & Oe).
      apply Oe, P1. }
  apply G.
Qed.

(** the last step *)
Lemma cmpl_cmp_subtractive P s diff d less strict c : (S c < max_bits)%nat ->
  - 2 ^ Z.of_nat c < d < 2 ^ Z.of_nat c -> has s diff (d mod order) ->
  comp D P s (cmp_subtractive diff less strict c)
    (done P (fun r s' => has s' r (b2z (2 ^ Z.of_nat c <=? 2 ^ Z.of_nat c - b2z strict + (if less then - d else d))))).
Proof using Hp H2.
  intros Hc Hd Hx. apply comp_hon. intros G _ _. unfold cmp_subtractive.
  pose proof (pow2_lt_order Hord (S c) Hc) as HB. rewrite pow2_S in HB. set (B := 2 ^ Z.of_nat c) in *.
  assert (HB0 : 0 < B) by apply pow2_pos.
  eapply comp_liftb.
  { unfold fshl. apply el_from_ok. unfold infield, fone. change (1 * 2 ^ Z.of_nat c) with (1 * B) in *. rewrite Z.mul_1_l. fold B. lia. }
  cbv zeta. unfold fone. rewrite Z.mul_1_l. fold B.
  set (z := B - b2z strict + (if less then - d else d)).
  assert (Hz : 0 <= z < 2 * B) by (clearbody B; unfold z; destruct strict, less; simpl b2z; lia).
  assert (Hzh : has s (e_add (e_const (fsub B (fbool strict))) (if less then e_neg diff else diff)) z).
  { eapply has_eq.
    - apply (has_add Hp) with (b := ((if less then - d else d)) mod order).
      + apply (has_const Hp); [exact G|]. apply infield_sub, Hord.
      + destruct less; [|exact Hx]. eapply has_eq; [apply (has_neg Hp), Hx|].
        rewrite <- !Z.sub_0_l. apply Zminus_mod_idemp_r.
    - rewrite (fsub_mod Hp). zmod. change (fbool strict) with (b2z strict). apply Z.mod_small. unfold z in Hz. lia. }
  cbind (apply (cmpl_split_bounded Hp); [exact Hzh|rewrite Nat.add_1_r, pow2_S; fold B; lia|lia]).
  intros zb P1 s1 X1 G1 [-> Hl].
  assert (Ll : length zb = (c + 1)%nat) by (rewrite (hasl_length _ _ _ Hl); apply zbl_length).
  destruct (hasl_nth _ _ _ Hl c ltac:(lia)) as (e & He & _ & Hev).
  eapply comp_lift; [exact He|]. split; auto. eapply has_eq; [exact Hev|].
  rewrite zbl_nth by lia. f_equal. unfold zbit.
  assert (Ez : z = z mod B + B * (z / B)) by (rewrite Z.add_comm; apply Z.div_mod; lia).
  assert (Hq : z / B = b2z (B <=? z)).
  { destruct (Z.leb_spec B z); simpl.
    - apply Z.le_antisymm; [apply Z.lt_succ_r, Z.div_lt_upper_bound; lia|apply Z.div_le_lower_bound; lia].
    - apply Z.div_small. lia. }
  destruct (Z.testbit z (Z.of_nat c)) eqn:T.
  - pose proof (Z.testbit_spec' z (Z.of_nat c) ltac:(lia)) as T'. rewrite T in T'. fold B in T'. rewrite Hq in T'.
    destruct (B <=? z); [reflexivity|discriminate].
  - pose proof (Z.testbit_spec' z (Z.of_nat c) ltac:(lia)) as T'. rewrite T in T'. fold B in T'. rewrite Hq in T'.
    destruct (B <=? z); [discriminate|reflexivity].
Qed.

(** ** the mask generator *)
Definition mask_step (xc yc : list expr) (st : values * bool) (im : nat * nat) : outcome (values * bool) :=
  let '(v1, seen) := st in
  let! xe := oindex xc (fst im) in
  let! xv := e_evaluate v1 xe in
  let! ye := oindex yc (fst im) in
  let! yv := e_evaluate v1 ye in
  let diff := negb (xv =? yv) in
  let! v2 := v_set (snd im) (fbool (diff && negb seen)) v1 in
  Ok (v2, seen || diff).

Lemma mask_fold (w : witness) xc yc (Dp : nat -> Prop) ms : forall k xs ys,
  length xs = length ms -> length ys = length ms -> NoDup ms ->
  (forall m, In m ms -> ~ Dp m) ->
  (forall i, (i < length ms)%nat -> exists xe ye, oindex xc (k + i) = Ok xe /\ oindex yc (k + i) = Ok ye /\
      over Dp xe /\ over Dp ye /\ ev w xe = nth i xs 0 /\ ev w ye = nth i ys 0) ->
  map w ms = fst (hmask xs ys) ->
  forall v, (forall i, Dp i -> m_get i v = Some (w i)) -> (forall m, In m ms -> m_get m v = None) ->
  exists v', ofold (mask_step xc yc) (rev (combine (seq k (length ms)) ms)) (v, false) = Ok (v', snd (hmask xs ys)) /\
     forall j, m_get j v' = if memb j ms then Some (w j) else m_get j v.
Proof using Hp.
  induction ms as [|m ms IH]; intros k xs ys Lx Ly ND Hd Hi Hw v Hv Hn.
  - destruct xs, ys; try discriminate. exists v. split; reflexivity.
  - destruct xs as [|x xs], ys as [|y ys]; try discriminate. cbn [length seq combine rev].
    cbn [hmask] in *. destruct (hmask xs ys) as [hm seen] eqn:Eh. cbn [fst snd map] in *.
    injection Hw as Hw1 Hw2. inversion ND as [|? ? Nm ND']; subst.
    destruct (IH (S k) xs ys ltac:(simpl in Lx; lia) ltac:(simpl in Ly; lia) ND') with (v := v) as (v1 & E1 & G1).
    + intros m' Hm'. apply Hd. right. exact Hm'.
    + intros i Hi'. destruct (Hi (S i) ltac:(simpl; lia)) as (xe & ye & R). exists xe, ye.
      rewrite Nat.add_succ_r in R. exact R.
    + rewrite Eh. reflexivity.
    + exact Hv.
    + intros m' Hm'. apply Hn. right. exact Hm'.
    + rewrite ofold_app, E1. rewrite Eh. cbn [snd obind ofold mask_step fst].
      destruct (Hi 0%nat ltac:(simpl; lia)) as (xe & ye & Ex & Ey & Ox & Oy & Vx & Vy).
      rewrite Nat.add_0_r in Ex, Ey. rewrite Ex, Ey. cbn [obind].
      assert (Hv1 : forall i, Dp i -> m_get i v1 = Some (w i)).
      { intros i Di. rewrite G1. destruct (memb i ms); [reflexivity|]. apply Hv, Di. }
      rewrite !(e_evaluate_deps Hord v1 w) by (intros i Hi'; apply Hv1; auto). cbn [obind nth] in *.
      rewrite Vx, Vy.
      replace (fbool (negb (x =? y) && negb seen)) with (w m) by (rewrite Hw1; reflexivity).
      destruct (v_set_fresh m (w m) v1) as (v2 & -> & G2).
      { rewrite G1. destruct (memb m ms) eqn:Em; [apply memb_In in Em; contradiction|]. apply Hn. left. reflexivity. }
      cbn [obind]. exists v2. split; [reflexivity|]. intro j. rewrite G2, G1. unfold memb. cbn [existsb].
      destruct (Nat.eqb_spec j m) as [->|]; reflexivity.
Qed.

Lemma oindex_seq a n i : (i < n)%nat -> oindex (seq a n) i = Ok (a + i)%nat.
Proof.
  intro H. unfold oindex. rewrite (nth_error_nth' _ 0%nat) by (rewrite seq_length; exact H).
  rewrite seq_nth by exact H. reflexivity.
Qed.

Lemma digits_eq_nth B xs ys : xs = ys -> digits_val B xs = digits_val B ys.
Proof. congruence. Qed.

Lemma Forall2_nth_hasl s xc vals : map (ev (wt s)) xc = vals -> Forall (over (fun k => (k < nx s)%nat)) xc -> hasl s xc vals.
Proof. intros <- H. unfold hasl. induction H; simpl; constructor; auto. split; auto. Qed.

Lemma cmpl_cmp_binary P s x y xl yl less strict : hasl s x xl -> hasl s y yl ->
  Forall is_bit xl -> Forall is_bit yl -> length x = length y -> (0 < length x)%nat ->
  (S (cmp_chunk_bits (length x)) < max_bits)%nat ->
  comp D P s (cmp_binary x y less strict)
    (done P (fun r s' => has s' r (b2z (cmp_spec less strict (bits_val xl) (bits_val yl))))).
Proof using Hp H2.
  intros Hx Hy Bx By Hlen Hpos Hcm. apply comp_hon. intros G _ _. unfold cmp_binary.
  eapply comp_liftb; [rewrite Hlen, Nat.eqb_refl; reflexivity|]. cbv zeta.
  destruct (cmp_chunk_bits_spec (length x)) as (Hc1 & _ & _).
  set (c := cmp_chunk_bits (length x)) in *.
  destruct (chunk_ok c ltac:(lia) x) as (xc & Exc & Oxc).
  destruct (chunk_ok c ltac:(lia) y) as (yc & Eyc & Oyc).
  eapply comp_liftb; [exact Exc|]. eapply comp_liftb; [exact Eyc|].
  apply (chunk_values Hp (wt s)) in Exc; [|eapply hasl_bin_ok; eauto|lia].
  apply (chunk_values Hp (wt s)) in Eyc; [|eapply hasl_bin_ok; eauto|lia].
  rewrite (hasl_bin_val _ _ _ Hx) in Exc. rewrite (hasl_bin_val _ _ _ Hy) in Eyc.
  destruct Exc as (Lx & Fx & Vx), Eyc as (Ly & Fy & Vy). rewrite <- Hlen in Ly.
  set (xs := map (ev (wt s)) xc) in *. set (ys := map (ev (wt s)) yc) in *.
  assert (Hxc : hasl s xc xs) by (apply Forall2_nth_hasl; [reflexivity|apply Oxc, hasl_map_ev with (1 := Hx)]).
  assert (Hyc : hasl s yc ys) by (apply Forall2_nth_hasl; [reflexivity|apply Oyc, hasl_map_ev with (1 := Hy)]).
  specialize (Oxc _ (bin_deps_over x)). specialize (Oyc _ (bin_deps_over y)).
  pose proof (bin_deps_lt _ _ _ Hx) as Dx. pose proof (bin_deps_lt _ _ _ Hy) as Dy.
  set (n := length xc) in *.
  assert (Ln : length yc = n) by (unfold n; lia).
  assert (Lxs : length xs = n) by apply map_length.
  assert (Lys : length ys = n) by (unfold ys; rewrite map_length; exact Ln).
  set (hm := fst (hmask xs ys)).
  assert (Lhm : length hm = n) by (unfold hm; rewrite hmask_length; lia).
  rewrite <- Lhm at 1.
  pose proof (cmp_chunk_count (length x) Hcm) as Hcount. fold c in Hcount. rewrite <- Lx in Hcount.
  pose proof (pow2_lt_order Hord (S c) Hcm) as HB. rewrite pow2_S in HB.
  pose proof (pow2_gt (S c)) as Hgt. rewrite pow2_S in Hgt.
  pose proof (pow2_pos c) as HB0. set (B := 2 ^ Z.of_nat c) in *.
  assert (Hbm : Forall is_bit hm) by apply hmask_bits.
  assert (Hn0 : (0 < n)%nat).
  { destruct (Nat.eq_dec n 0) as [E|]; [|lia]. exfalso.
    destruct (ceil_div_spec (length x) c ltac:(lia)) as (A & _ & _). rewrite <- Lx, E in A. simpl in A. lia. }
  assert (Hfm : Forall infield hm).
  { eapply Forall_impl; [|exact Hbm]. intros a. apply (is_bit_infield Hp). }
  cbind (apply (cmpl_wires Hp), Hfm). intros mask P1 s1 X1 G1 (Em & HP1 & N1 & W1).
  rewrite Lhm in Em, N1. carry.
  assert (Lm : length mask = n) by (rewrite Em; apply seq_length).
  assert (NDm : NoDup mask) by (rewrite Em; apply seq_NoDup).
  eapply comp_bind; [apply comp_bmap with (R := fun _ _ _ => True); [auto|]|cbv beta].
  { intros m s2 Hm X2. carry. apply comp_hon. intros G2 _ _.
    apply (In_nth _ _ 0%nat) in Hm. destruct Hm as (i & Hi & <-).
    cweaken (eapply (cmpl_assert_boolean Hp); [apply (has_wire Hp); [exact G2|exact (hasw_nth _ _ _ W1 i Hi)]|
      rewrite Forall_forall in Hbm; apply Hbm, nth_In; lia]).
    intros r P3 s3 _ _ (_ & -> & ->). split; auto. }
  intros _l P2 s2 X2 G2 [-> _]. carry.
  pose proof (hmask_spec xs ys ltac:(lia)) as Hspec. cbv zeta in Hspec. fold hm in Hspec.
  set (M := fun i => nth i hm 0). set (X := fun i => nth i xs 0). set (Y := fun i => nth i ys 0).
  assert (HsM : fold_right (fun k s => wt s2 k + s) 0 mask = zsum M n).
  { unfold M. rewrite <- Lhm, zsum_list. clear - W1. induction W1 as [|a b l l' [_ E] _ IH]; simpl; congruence. }
  assert (Hzs : zsum M n = b2z (snd (hmask xs ys))).
  { destruct Hspec as [(-> & _ & Hz)|(-> & j & Hj & _ & _ & H1 & H0)]; simpl b2z.
    - apply zsum_zero. intros i _. apply Hz.
    - rewrite (zsum_single M n j); [exact H1|lia|]. intros i _ Hi. apply H0, Hi. }
  assert (Hde : has s2 (e_sum_of_wires mask) (b2z (snd (hmask xs ys)))).
  { split.
    - apply over_sum_of_wires, Forall_forall. intros m Hm. apply (In_nth _ _ 0%nat) in Hm. destruct Hm as (i & Hi & <-).
      exact (proj1 (hasw_nth _ _ _ W1 i Hi)).
    - rewrite (ev_sum_of_wires _ _ NDm), HsM, Hzs. apply Z.mod_small. pose proof Hord. destruct (snd (hmask xs ys)); simpl; lia. }
  cbind (eapply (cmpl_assert_boolean Hp); [exact Hde|destruct (snd (hmask xs ys)); [right|left]; reflexivity]).
  intros de P3 s3 _ _ (-> & -> & ->).
  eapply comp_bind; [eapply comp_gens with (ks := mask) (P0 := P)|].
  { exact HP1. }
  { intros m Hm. apply (In_nth _ _ 0%nat) in Hm. destruct Hm as (i & Hi & <-).
    exact (proj1 (hasw_nth _ _ _ W1 i Hi)). }
  { intros i Hi. assert (nx s <= nx s2)%nat by (destruct X1, X2; lia).
    apply in_app_or in Hi. destruct Hi as [Hi|Hi]; [specialize (Dx i Hi)|specialize (Dy i Hi)]; lia. }
  { intros i m Hi Hm. rewrite Em in Hm. apply in_seq in Hm.
    apply in_app_or in Hi. destruct Hi as [Hi|Hi]; [specialize (Dx i Hi)|specialize (Dy i Hi)]; lia. }
  { intros v Hv Hn. unfold cmp_mask_run. fold (mask_step xc yc).
    destruct (mask_fold (wt s2) xc yc (fun i => In i (bin_deps x ++ bin_deps y)) mask 0 xs ys) with (v := v) as (v' & Ev & Gv).
    - lia.
    - lia.
    - exact NDm.
    - intros m Hm Hi. rewrite Em in Hm. apply in_seq in Hm.
      apply in_app_or in Hi. destruct Hi as [Hi|Hi]; [specialize (Dx m Hi)|specialize (Dy m Hi)]; lia.
    - intros i Hi. rewrite Lm in Hi.
      destruct (hasl_nth _ _ _ Hxc i Hi) as (xe & Ex & Ix & _ & Vxe).
      destruct (hasl_nth _ _ _ Hyc i ltac:(lia)) as (ye & Ey & Iy & _ & Vye).
      exists xe, ye. rewrite Forall_forall in Oxc, Oyc. repeat split; auto.
      + intros k Hk. apply in_or_app. left. exact (Oxc xe Ix k Hk).
      + intros k Hk. apply in_or_app. right. exact (Oyc ye Iy k Hk).
    - clear - W1. fold hm. induction W1 as [|a b l l' [_ E] _ IH]; simpl; congruence.
    - exact Hv.
    - exact Hn.
    - unfold enumerate. rewrite Ev. exists v'. split; [reflexivity|exact Gv]. }
  cbv beta. intros _ P4 s4 _ _ [-> ->].
  (* the digits at position i *)
  assert (IX : forall s', ext s2 s' -> forall i, (i < n)%nat -> exists e, oindex xc i = Ok e /\ has s' e (X i)).
  { intros s' E i Hi. destruct (hasl_nth _ _ _ Hxc i Hi) as (e & Ee & _ & He). exists e. split; auto. eapply has_ext; eauto. }
  assert (IY : forall s', ext s2 s' -> forall i, (i < n)%nat -> exists e, oindex yc i = Ok e /\ has s' e (Y i)).
  { intros s' E i Hi. destruct (hasl_nth _ _ _ Hyc i ltac:(lia)) as (e & Ee & _ & He). exists e. split; auto. eapply has_ext; eauto. }
  assert (IM : forall s', good s' -> ext s2 s' -> forall i, (i < n)%nat -> exists m, oindex mask i = Ok m /\ has s' (e_wire m) (M i)).
  { intros s' G' E i Hi. exists (nth i mask 0%nat). split.
    - unfold oindex. rewrite (nth_error_nth' _ 0%nat) by lia. reflexivity.
    - apply (has_wire Hp); auto. eapply hasw_ext; [exact E|]. apply hasw_nth; [exact W1|lia]. }
  eapply comp_bind with (Q := done P (fun dc s' => has s' dc (zsum (fun i => M i * (X i - Y i)) n mod order))).
  { apply comp_bfold_seq with (k := 0%nat) (I := fun i dc s' => has s' dc (zsum (fun i => M i * (X i - Y i)) i mod order)).
    - eapply has_eq; [apply (has_zero Hp)|]. symmetry. apply (mod_small_0 Hp).
    - intros i dc s5 Hi X5 Hdc. apply comp_hon. intros G5 _ _.
      destruct (IX s5 X5 i ltac:(lia)) as (xe & Ex & Hxe). destruct (IY s5 X5 i ltac:(lia)) as (ye & Ey & Hye).
      destruct (IM s5 G5 X5 i ltac:(lia)) as (m & Emi & Hmi).
      eapply comp_liftb; [exact Ex|]. eapply comp_liftb; [exact Ey|]. eapply comp_liftb; [exact Emi|].
      cbind (apply (cmpl_product Hp); [exact Hmi|apply (has_sub Hp); [exact Hxe|exact Hye]]).
      intros t P6 s6 X6 G6 [-> Ht]. apply comp_ret. split; auto.
      eapply has_eq; [apply (has_add Hp); [eapply has_ext; [exact X6|exact Hdc]|exact Ht]|].
      cbn [zsum]. zmod. reflexivity. }
  intros dc P5 s5 X5 G5 [-> Hdc].
  destruct (IM s5 G5 X5 0%nat Hn0) as (m0 & Em0 & Hm0).
  eapply comp_liftb; [exact Em0|].
  assert (Hprod : forall i, (i < n)%nat -> zsum M i * (X i - Y i) = 0).
  { intros i Hi. destruct Hspec as [(_ & E & _)|(_ & j & Hj & _ & Hup & H1 & H0)].
    - unfold X, Y. rewrite E, Z.sub_diag. lia.
    - destruct (le_lt_dec i j).
      + rewrite zsum_zero; [lia|]. intros i' Hi'. apply H0. lia.
      + unfold X, Y. rewrite (Hup i) by lia. lia. }
  eapply comp_bind with (Q := done P (fun _ _ => True)).
  { eapply comp_weaken.
    - apply comp_bfold_seq with (I := fun i e s' => has s' e (zsum M i mod order)).
      + eapply has_eq; [exact Hm0|]. cbn [zsum]. rewrite Z.add_0_l. symmetry. apply Z.mod_small.
        exact (has_infield Hp _ _ _ Hm0).
      + intros i e s6 Hi X6 He. apply comp_hon. intros G6 _ _.
        assert (X26 : ext s2 s6) by (eapply ext_trans; eauto).
        destruct (IX s6 X26 i ltac:(lia)) as (xe & Ex & Hxe). destruct (IY s6 X26 i ltac:(lia)) as (ye & Ey & Hye).
        destruct (IM s6 G6 X26 i ltac:(lia)) as (m & Emi & Hmi).
        eapply comp_liftb; [exact Ex|]. eapply comp_liftb; [exact Ey|].
        cbind (eapply comp_assert_product; [exact He|apply (has_sub Hp); [exact Hxe|exact Hye]|apply (has_zero Hp)|
           rewrite <- Zmult_mod, Hprod by lia; symmetry; apply (mod_small_0 Hp)]).
        intros _ P7 s7 _ _ [-> ->]. eapply comp_liftb; [exact Emi|]. apply comp_ret. split; auto.
        eapply has_eq; [apply (has_add Hp); [exact He|exact Hmi]|]. cbn [zsum]. zmod. reflexivity.
    - cbv beta. intros _rr P6 s6 _ _ [-> _]. split; auto. }
  intros _ P6 s6 X6 G6 [-> _]. carry.
  (* the difference of the selected chunks *)
  set (d := zsum (fun i => M i * (X i - Y i)) n) in *.
  assert (DX : forall i, (i < n)%nat -> 0 <= X i < B).
  { intros i Hi. unfold X. rewrite Forall_forall in Fx. apply Fx, nth_In. fold xs. lia. }
  assert (DY : forall i, (i < n)%nat -> 0 <= Y i < B).
  { intros i Hi. unfold Y. rewrite Forall_forall in Fy. apply Fy, nth_In. fold ys. lia. }
  assert (Hd : - B < d < B /\ (snd (hmask xs ys) = true -> d <> 0) /\
     (d < 0 <-> bits_val xl < bits_val yl) /\ (0 < d <-> bits_val yl < bits_val xl)).
  { rewrite <- Vx, <- Vy. destruct Hspec as [(Es & E & Hz)|(Es & j & Hj & Hne & Hup & H1 & H0)].
    - assert (d = 0) as ->. { apply zsum_zero. intros i _. unfold M. rewrite Hz. lia. }
      rewrite Es, E. split; [lia|]. split; [discriminate|]. lia.
    - assert (Ed : d = X j - Y j).
      { unfold d. rewrite (zsum_single _ n j); [unfold M; rewrite H1; lia|lia|].
        intros i _ Hi. unfold M. rewrite H0 by exact Hi. lia. }
      pose proof (DX j ltac:(lia)). pose proof (DY j ltac:(lia)).
      assert (LXY : X j < Y j -> digits_val B xs < digits_val B ys).
      { intro. apply digits_lt with (j := j); auto; lia. }
      assert (LYX : Y j < X j -> digits_val B ys < digits_val B xs).
      { intro. apply digits_lt with (j := j); auto; try lia. intros i Hi. symmetry. apply Hup. lia. }
      fold (X j) (Y j) in Hne. clearbody X Y B d. clear - Ed Hne LXY LYX H H3. lia. }
  destruct Hd as (Hd1 & Hd2 & Hd3 & Hd4).
  eapply comp_bind with (Q := done P (fun _ _ => True)).
  { destruct strict; [apply comp_ret; split; auto|].
    cbind (apply (cmpl_selection Hp); [exact Hde|exact Hdc|apply (has_one Hp), G6|destruct (snd (hmask xs ys)); [right|left]; reflexivity]).
    intros nz P7 s7 X7 G7 [-> Hnz].
    eapply (cmpl_assert_nonzero Hp H2); [exact Hnz|].
    destruct (snd (hmask xs ys)); simpl b2z; simpl Z.eqb; cbv iota; [|lia].
    specialize (Hd2 eq_refl). intro E. apply Hd2. apply Z.mod_divide in E; [|lia].
    destruct E as [q Eq]. assert (q = 0) by nia. subst q. lia. }
  intros _ P7 s7 X7 G7 [-> _]. carry.
  cweaken (apply cmpl_cmp_subtractive; [exact Hcm|exact Hd1|exact Hdc]).
  intros r P8 s8 _ _ [-> Hr]. split; auto. eapply has_eq; [exact Hr|]. fold B. f_equal.
  clear - Hd3 Hd4. clearbody d B.
  destruct less, strict; cbn [cmp_spec b2z];
    match goal with |- (?a <=? ?b) = (?c <? ?e) => destruct (Z.leb_spec a b), (Z.ltb_spec c e); lia
               | |- (?a <=? ?b) = (?c <=? ?e) => destruct (Z.leb_spec a b), (Z.leb_spec c e); lia end.
Qed.

End CmpComplete.
