(** Completeness of the remaining gadgets, and the end-to-end statement about [execute]. *)
From Coq Require Import ZArith List Bool Arith Lia Znumtheory Permutation.
From Verif Require Import Base FieldM FieldP ExprM BuilderM GadgetsM Spec ExprP BitsP MonoP SoundP CmpP
  GadgetSoundP HonestP CompleteP CmpCompleteP.
Import ListNotations.
Open Scope Z_scope.

Section Chunk.
Context {F : Field}.

(** The chunk width always leaves a spare bit. *)
Lemma chunk_room len : (len = max_bits /\ 4 <= max_bits)%nat \/ (1 <= len <= max_bits /\ 7 <= max_bits)%nat ->
  (S (cmp_chunk_bits len) < max_bits)%nat.
Proof.
  intro H. destruct (cmp_chunk_bits_spec len) as (H1 & Hr & H3).
  destruct (le_lt_dec max_bits (S (cmp_chunk_bits len))) as [L|]; [exfalso|assumption].
  assert (Ec : cmp_chunk_bits len = (max_bits - 1)%nat) by lia.
  assert (CC : forall c, cmp_constraints len c = (3 * ceil_div len c + 2 + c)%nat) by reflexivity.
  assert (Hcd : forall c q, (0 < c)%nat -> (q * c < len <= S q * c)%nat -> ceil_div len c = S q).
  { intros c q Hc Hl. destruct (ceil_div_spec len c Hc) as (A1 & A2 & _). specialize (A2 ltac:(lia)).
    assert (ceil_div len c < S (S q))%nat by nia. assert (q < ceil_div len c)%nat by nia. lia. }
  destruct (Nat.eq_dec len max_bits) as [E|N].
  - set (h := Nat.div2 (S len)).
    assert (Hh : (2 * h = len \/ 2 * h = S len)%nat).
    { unfold h. destruct (Nat.Even_or_Odd len) as [[k ->]|[k ->]].
      - left. rewrite Nat.div2_succ_double. lia.
      - right. replace (S (2 * k + 1)) with (2 * S k)%nat by lia. rewrite Nat.div2_double. lia. }
    specialize (H3 h ltac:(lia)). rewrite Ec, !CC in H3.
    rewrite (Hcd h 1%nat), (Hcd (max_bits - 1)%nat 1%nat) in H3 by lia. lia.
  - destruct (Nat.eq_dec len (max_bits - 1)) as [E|N1].
    + destruct (Nat.eq_dec max_bits 7) as [E7|]; [|destruct (Nat.eq_dec max_bits 8) as [E8|]].
      * assert (Ec' := Ec). unfold cmp_chunk_bits in Ec'. rewrite E, E7 in Ec'. vm_compute in Ec'. discriminate.
      * assert (Ec' := Ec). unfold cmp_chunk_bits in Ec'. rewrite E, E8 in Ec'. vm_compute in Ec'. discriminate.
      * set (h := Nat.div2 (S len)).
        assert (Hh : (2 * h = len \/ 2 * h = S len)%nat).
        { unfold h. destruct (Nat.Even_or_Odd len) as [[k ->]|[k ->]].
          - left. rewrite Nat.div2_succ_double. lia.
          - right. replace (S (2 * k + 1)) with (2 * S k)%nat by lia. rewrite Nat.div2_double. lia. }
        specialize (H3 h ltac:(lia)). rewrite Ec, !CC in H3.
        rewrite (Hcd h 1%nat), (Hcd (max_bits - 1)%nat 0%nat) in H3 by lia. lia.
    + specialize (H3 len ltac:(lia)). rewrite Ec, !CC in H3.
      rewrite (Hcd len 0%nat), (Hcd (max_bits - 1)%nat 0%nat) in H3 by lia. lia.
Qed.

End Chunk.

Section GadgetComplete.
Context {F : Field} (Hp : prime order) (H2 : 2 < order).
Context (D : nat -> Prop).
Let Hord : 2 <= order := prime_ge2 Hp.

(** an odd prime is not a power of two *)
Lemma order_bits : zbits order = max_bits.
Proof using Hp H2.
  assert (Hub := max_bits_upper Hord). assert (Hlo := max_bits_lower Hord).
  assert (Hne : order <> 2 ^ Z.of_nat max_bits).
  { intro E. destruct (Nat.eq_dec max_bits 0) as [E0|N]; [rewrite E0 in E; simpl in E; lia|].
    assert (Hd : (2 | order)).
    { exists (2 ^ Z.of_nat (max_bits - 1)). rewrite E. replace max_bits with (S (max_bits - 1)) at 1 by lia.
      rewrite pow2_S. ring. }
    apply (prime_divisors _ Hp) in Hd. lia. }
  apply Nat.le_antisymm.
  - apply zbits_min. lia.
  - pose proof (zbits_lower order (max_bits - 1)). lia.
Qed.

(** ** constants *)
Lemma hasl_bin_from s z : good s -> 0 <= z -> hasl s (bin_from z) (zbl z (zbits z)).
Proof using Hp.
  intros G Hz. unfold bin_from, zbl, hasl. induction (seq 0 (zbits z)); simpl; constructor; auto.
  apply (has_bool Hp), G.
Qed.

Lemma bin_from_length z : length (bin_from z) = zbits z.
Proof. unfold bin_from. rewrite map_length, seq_length. reflexivity. Qed.

(** ** canonical splitting *)
Lemma cmpl_assert_lt_binary P s x y xl yl : hasl s x xl -> hasl s y yl ->
  Forall is_bit xl -> Forall is_bit yl -> length x = length y -> (0 < length x)%nat ->
  (S (cmp_chunk_bits (length x)) < max_bits)%nat -> bits_val xl < bits_val yl ->
  comp D P s (assert_lt_binary x y) (done P (fun _ _ => True)).
Proof using Hp H2.
  intros Hx Hy Bx By Hl H0 Hc Hlt. unfold assert_lt_binary, lt_binary.
  cbind (eapply (cmpl_cmp_binary Hp H2); [exact Hx|exact Hy|assumption..]). intros r P1 s1 X1 G1 [-> Hr].
  cweaken (apply (cmpl_assert_true Hp); eapply has_eq; [exact Hr|simpl; destruct (Z.ltb_spec (bits_val xl) (bits_val yl)); [reflexivity|lia]]).
  intros ? P2 s2 _ _ [-> _]. split; auto.
Qed.

Lemma cmpl_split P s x a : (4 <= max_bits)%nat -> has s x a ->
  comp D P s (split x) (done P (fun r s' => hasl s' r (zbl a max_bits))).
Proof using Hp H2.
  intros H4 Hx. unfold split. pose proof (has_infield Hp _ _ _ Hx) as Ia.
  cbind (apply (cmpl_split_amb Hp); exact Hx). intros r P1 s1 X1 G1 [-> Hr].
  assert (Lr : length r = max_bits) by (rewrite (hasl_length _ _ _ Hr); apply zbl_length).
  assert (Ub := max_bits_upper Hord).
  assert (Hz := zbits_spec order).
  assert (Hv : bits_val (zbl a max_bits) < bits_val (zbl order (zbits order))).
  { unfold infield in Ia. rewrite !zbl_val; lia. }
  eapply comp_bind; [eapply cmpl_assert_lt_binary with (8 := Hv)|cbv beta].
  { exact Hr. } { apply hasl_bin_from; [exact G1|lia]. } { apply zbl_bits. } { apply zbl_bits. }
  { rewrite bin_from_length, order_bits. exact Lr. } { lia. } { apply chunk_room. left. lia. }
  intros _ P2 s2 X2 G2 [-> _]. carry. apply comp_ret. split; auto.
Qed.

Lemma cmpl_cmp P s x y a b less strict : (4 <= max_bits)%nat -> has s x a -> has s y b ->
  comp D P s (cmp x y less strict) (done P (fun r s' => has s' r (b2z (cmp_spec less strict a b)))).
Proof using Hp H2.
  intros H4 Hx Hy. pose proof (has_infield Hp _ _ _ Hx) as Ia. pose proof (has_infield Hp _ _ _ Hy) as Ib.
  assert (Ub := max_bits_upper Hord). unfold infield in Ia, Ib.
  assert (Fin : forall s' xb yb, hasl s' xb (zbl a max_bits) -> hasl s' yb (zbl b max_bits) ->
     comp D P s' (cmp_binary xb yb less strict) (done P (fun r s' => has s' r (b2z (cmp_spec less strict a b))))).
  { intros s' xb yb Hxb Hyb.
    assert (Lx : length xb = max_bits) by (rewrite (hasl_length _ _ _ Hxb); apply zbl_length).
    assert (Ly : length yb = max_bits) by (rewrite (hasl_length _ _ _ Hyb); apply zbl_length).
    cweaken (eapply (cmpl_cmp_binary Hp H2); [exact Hxb|exact Hyb|apply zbl_bits|apply zbl_bits|lia|lia|apply chunk_room; left; lia]).
    intros r P2 s2 _ _ [-> Hr]. split; auto. rewrite !zbl_val in Hr by lia. exact Hr. }
  unfold cmp. destruct less.
  - cbind (apply (cmpl_split_amb Hp); exact Hx). intros xb P1 s1 X1 G1 [-> Hxb]. carry.
    cbind (apply cmpl_split; [exact H4|exact Hy]). intros yb P2 s2 X2 G2 [-> Hyb]. carry. apply Fin; auto.
  - cbind (apply cmpl_split; [exact H4|exact Hx]). intros xb P1 s1 X1 G1 [-> Hxb]. carry.
    cbind (apply (cmpl_split_amb Hp); exact Hy). intros yb P2 s2 X2 G2 [-> Hyb]. carry. apply Fin; auto.
Qed.

(** All comparison assertions. *)
Lemma cmpl_assert_cmp P s x y a b less strict : (4 <= max_bits)%nat -> has s x a -> has s y b ->
  cmp_spec less strict a b = true ->
  comp D P s (r <- cmp x y less strict ;; assert_true r) (done P (fun _ _ => True)).
Proof using Hp H2.
  intros H4 Hx Hy Hc. cbind (apply cmpl_cmp; [exact H4|exact Hx|exact Hy]). intros r P1 s1 X1 G1 [-> Hr].
  cweaken (apply (cmpl_assert_true Hp); eapply has_eq; [exact Hr|rewrite Hc; reflexivity]).
  intros ? P2 s2 _ _ [-> _]. split; auto.
Qed.

(** ** modulus: the generator is registered after the comparison, but its outputs are older *)
Lemma cmpl_modulus P s x y a b : (4 <= max_bits)%nat -> has s x a -> has s y b -> b <> 0 ->
  comp D P s (modulus x y) (done P (fun r s' => has s' r (a mod b))).
Proof using Hp H2.
  intros H4 Hx Hy Hb. unfold modulus, assert_lt, lt. pose proof (has_infield Hp _ _ _ Hx) as Ia.
  pose proof (has_infield Hp _ _ _ Hy) as Ib. unfold infield in Ia, Ib.
  pose proof (deps_lt _ _ _ Hx) as Lx. pose proof (deps_lt _ _ _ Hy) as Ly.
  assert (Hq : infield (a / b)).
  { split; [apply Z.div_pos; lia|]. apply Z.le_lt_trans with a; [apply Z.div_le_upper_bound; nia|lia]. }
  assert (Hm := Z.mod_pos_bound a b ltac:(lia)).
  assert (Hr : infield (a mod b)) by (unfold infield; lia).
  cbind (apply comp_wire; exact Hq). intros q P1 s1 X1 G1 (-> & -> & N1 & W1). carry.
  cbind (apply comp_wire; exact Hr). intros r P2 s2 X2 G2 (-> & -> & N2 & W2). carry. rewrite N1 in *.
  cbind (eapply comp_assert_product; [exact Hy|apply (has_wire Hp); [exact G2|exact W1]|
     apply (has_sub Hp); [exact Hx|apply (has_wire Hp); [exact G2|exact W2]]|
     f_equal; pose proof (Z.div_mod a b Hb); lia]).
  intros _ P3 s3 _ _ [-> ->].
  cbind (eapply cmpl_assert_cmp; [exact H4|apply (has_wire Hp); [exact G2|exact W2]|exact Hy|
     simpl; apply Z.ltb_lt; lia]).
  intros _ P4 s4 X4 G4 [-> _]. carry.
  eapply comp_bind; [eapply comp_gens with (ks := [S (nx s); nx s]) (P0 := P)|].
  - reflexivity.
  - intros k [<-|[<-|[]]]; [apply W2|apply W1].
  - intros i Hi. apply Nat.lt_trans with (nx s); [|apply W1].
    apply in_app_or in Hi; destruct Hi; auto.
  - intros i k Hi Hk. assert (i < nx s)%nat by (apply in_app_or in Hi; destruct Hi; auto).
    destruct Hk as [<-|[<-|[]]]; lia.
  - intros v Hv Hn. rewrite (eval_has Hp s4 x a v Hx), (eval_has Hp s4 y b v Hy) by (intros; apply Hv, in_or_app; auto).
    cbn [obind]. unfold integer_division, integer_modulus.
    destruct (Z.eqb_spec b 0); [contradiction|]. cbn [negb oassert obind].
    rewrite !el_from_ok by assumption. cbn [obind].
    destruct (v_set_fresh (nx s) (a / b) v) as (v1 & E1 & Hv1); [apply Hn; simpl; auto|]. rewrite E1. cbn [obind].
    destruct (v_set_fresh (S (nx s)) (a mod b) v1) as (v2 & E2 & Hv2).
    { rewrite Hv1. destruct (Nat.eqb_spec (S (nx s)) (nx s)); [lia|]. apply Hn; simpl; auto. }
    rewrite E2. exists v2. split; auto. intro j. rewrite Hv2, Hv1. unfold memb. simpl.
    destruct W1 as [_ E1'], W2 as [_ E2'].
    destruct (Nat.eqb_spec j (S (nx s))) as [->|].
    + rewrite E2'. reflexivity.
    + destruct (Nat.eqb_spec j (nx s)) as [->|]; simpl; [rewrite E1'|]; reflexivity.
  - cbv beta. intros _ P5 s5 _ _ [-> ->]. apply comp_ret. split; auto. apply (has_wire Hp); auto.
Qed.

Lemma cmpl_divides P s x y a b : (4 <= max_bits)%nat -> has s x a -> has s y b -> a <> 0 ->
  comp D P s (divides x y) (done P (fun r s' => has s' r (if b mod a =? 0 then 1 else 0))).
Proof using Hp H2.
  intros H4 Hx Hy Ha. unfold divides. cbind (apply cmpl_modulus; [exact H4|exact Hy|exact Hx|exact Ha]).
  intros m P1 s1 X1 G1 [-> Hm]. apply (cmpl_zero Hp H2), Hm.
Qed.

(** ** sums *)
Definition zlsum (l : list Z) : Z := fold_right Z.add 0 l.

Lemma max_sum_bound ts ls s : Forall2 (hasl s) ts ls -> Forall (Forall is_bit) ls ->
  0 <= zlsum (map bits_val ls) <= max_sum ts /\ Forall (fun t : binexpr => 2 ^ Z.of_nat (length t) <= max_sum ts + 1) ts.
Proof.
  intros H Hb. unfold max_sum. rewrite max_sum_acc.
  assert (G : 0 <= zlsum (map bits_val ls) <= fold_right (fun (t : binexpr) s => (2 ^ Z.of_nat (length t) - 1) + s) 0 ts).
  { clear Hp H2 Hord. induction H as [|t l ts ls Ht _ IH]; simpl; [lia|]. inversion Hb as [|? ? Bl Bls]; subst.
    pose proof (bits_val_bound l Bl) as Bv. rewrite <- (hasl_length _ _ _ Ht) in Bv. specialize (IH Bls). lia. }
  split; [lia|]. clear. rewrite Forall_forall. intros t Ht.
  assert (Hn : forall ts : list binexpr, 0 <= fold_right (fun (t : binexpr) s => (2 ^ Z.of_nat (length t) - 1) + s) 0 ts).
  { clear. induction ts as [|t ts IH]; simpl; [lia|]. pose proof (pow2_pos (length t)). lia. }
  induction ts as [|t' ts IH]; [destruct Ht|]. cbn [fold_right].
  pose proof (pow2_pos (length t')). specialize (Hn ts). destruct Ht as [->|Ht]; [|specialize (IH Ht)]; lia.
Qed.

Lemma hasl_join s x l : hasl s x l -> Forall is_bit l -> 2 ^ Z.of_nat (length x) <= order ->
  exists e, bin_join x = Ok e /\ has s e (bits_val l mod order).
Proof using Hp.
  intros Hx Hb Hle. destruct (bin_join_ok Hord x Hle) as (e & Ee). exists e. split; auto.
  apply (bin_join_inv Hord) in Ee. destruct Ee as (_ & _ & Hev & Ho). split.
  - apply Ho. apply (hasl_map_ev _ _ _ Hx).
  - rewrite Hev, (hasl_bin_val _ _ _ Hx). reflexivity.
Qed.

Lemma omap_joins s ts ls : Forall2 (hasl s) ts ls -> Forall (Forall is_bit) ls ->
  Forall (fun t : binexpr => 2 ^ Z.of_nat (length t) <= order) ts ->
  exists js, omap bin_join ts = Ok js /\ hasl s js (map (fun l => bits_val l mod order) ls).
Proof using Hp.
  induction 1 as [|t l ts ls Ht _ IH]; intros Hb Hf.
  - exists []. split; [reflexivity|constructor].
  - inversion Hb as [|? ? Bl Bls]; inversion Hf as [|? ? Fl Fls]; subst. destruct (IH Bls Fls) as (js & Ej & Hj).
    destruct (hasl_join s t l Ht Bl Fl) as (e & Ee & He).
    exists (e :: js). cbn [omap]. rewrite Ee, Ej. split; [reflexivity|]. constructor; auto.
Qed.

Lemma has_sum s es cs : hasl s es cs -> has s (e_sum es) (zlsum cs mod order).
Proof using Hp.
  intro H. pose proof (hasl_map_ev _ _ _ H) as [E O]. split; [apply over_sum, O|].
  rewrite (ev_sum Hord). f_equal. subst cs. clear. induction es; simpl; congruence.
Qed.

Lemma zlsum_mod ls : zlsum (map (fun l => bits_val l mod order) ls) mod order = zlsum (map bits_val ls) mod order.
Proof using Hp.
  induction ls as [|l ls IH]; [reflexivity|]. simpl. zmod. rewrite Zplus_mod, IH, <- Zplus_mod. reflexivity.
Qed.

Lemma set_binary_unsigned_ok w ws z v : 0 <= z < 2 ^ Z.of_nat (length ws) -> NoDup ws ->
  map w ws = zbl z (length ws) -> (forall k, In k ws -> m_get k v = None) ->
  exists v', v_set_binary_unsigned ws z v = Ok v' /\ forall j, m_get j v' = if memb j ws then Some (w j) else m_get j v.
Proof.
  intros Hz ND Hw Hn. unfold v_set_binary_unsigned.
  assert (Hle : (zbits z <=? length ws)%nat = true) by (apply Nat.leb_le, zbits_min; exact Hz).
  rewrite Hle. cbn [oassert obind].
  assert (Es : map snd (enumerate ws) = ws).
  { unfold enumerate. clear. generalize 0%nat. induction ws as [|a l IH]; intro k; [reflexivity|].
    cbn [length seq combine map snd]. rewrite IH. reflexivity. }
  destruct (ofold_sets w (enumerate ws) snd
       (fun v' ik => v_set_boolean (snd ik) (zbit z (fst ik)) v')) with (v := v) as (v' & Hf & Hg).
  - intros [i k] v1 Hi. cbn [fst snd]. unfold v_set_boolean. f_equal.
    unfold enumerate in Hi. apply (In_nth _ _ (0%nat,0%nat)) in Hi. destruct Hi as (j & Hj & E).
    rewrite combine_length, seq_length, Nat.min_id in Hj.
    rewrite combine_nth in E by apply seq_length. injection E as E1 E2.
    rewrite seq_nth in E1 by exact Hj. simpl in E1. subst i.
    rewrite <- E2. rewrite <- (map_nth w ws), (nth_indep _ (w 0%nat) 0) by (rewrite map_length; exact Hj).
    rewrite Hw, zbl_nth by exact Hj. reflexivity.
  - rewrite Es. exact ND.
  - rewrite Es. exact Hn.
  - rewrite Es in Hg. exists v'. auto.
Qed.

Lemma cmpl_binary_summation P s ts ls : Forall2 (hasl s) ts ls -> Forall (Forall is_bit) ls ->
  (zbits (max_sum ts) < max_bits)%nat ->
  comp D P s (binary_summation ts)
    (done P (fun r s' => hasl s' r (zbl (zlsum (map bits_val ls)) (zbits (max_sum ts))))).
Proof using Hp.
  intros Ht Hb Hm. unfold binary_summation. cbv zeta.
  destruct (max_sum_bound ts ls s Ht Hb) as (Bd & Fl).
  eapply comp_liftb; [unfold oassert; destruct (Nat.ltb_spec (zbits (max_sum ts)) max_bits); [reflexivity|lia]|].
  set (n := zbits (max_sum ts)) in *. set (z := zlsum (map bits_val ls)) in *.
  pose proof (zbits_spec (max_sum ts) ltac:(lia)) as Hz. fold n in Hz.
  pose proof (pow2_lt_order Hord n Hm) as Ho.
  rewrite <- (zbl_length z n) at 1.
  cbind (apply (cmpl_binary_wire Hp), zbl_bits). intros ws P1 s1 X1 G1 (Ews & HP1 & N1 & W1). rewrite zbl_length in *.
  assert (Lw : length ws = n) by (rewrite Ews; apply seq_length).
  assert (Hl := hasl_wires Hp s1 ws _ G1 W1).
  assert (Ht1 : Forall2 (hasl s1) ts ls).
  { clear - Ht X1. induction Ht; constructor; eauto using hasl_ext. }
  destruct (omap_joins s ts ls Ht Hb) as (js & Ej & Hj).
  { eapply Forall_impl; [|exact Fl]. cbv beta. intros t Hlt. lia. }
  eapply comp_liftb; [exact Ej|].
  assert (Hd := has_sum _ _ _ Hj). rewrite zlsum_mod in Hd. fold z in Hd. rewrite Z.mod_small in Hd by lia.
  pose proof (deps_lt _ _ _ Hd) as Ld. carry.
  destruct (hasl_join s1 (bin_of_wires ws) _ Hl (zbl_bits z n)) as (e & Ee & He).
  { unfold bin_of_wires. rewrite map_length, Lw. lia. }
  rewrite zbl_val, Z.mod_small in He by lia.
  eapply comp_liftb; [exact Ee|].
  cbind (eapply (cmpl_assert_equal Hp); [exact Hd|exact He]). intros _ P2 s2 _ _ [-> ->].
  eapply comp_bind; [eapply comp_gens with (ks := ws) (P0 := P)|].
  - exact HP1.
  - intros k Hk. rewrite Ews in Hk. apply in_seq in Hk. lia.
  - intros i Hi. specialize (Ld i Hi). lia.
  - intros i k Hi Hk. specialize (Ld i Hi). rewrite Ews in Hk. apply in_seq in Hk. lia.
  - intros v Hv Hn. rewrite (eval_has Hp s1 _ _ v Hd) by assumption. cbn [obind].
    apply set_binary_unsigned_ok; auto.
    + rewrite Lw. lia.
    + rewrite Ews. apply seq_NoDup.
    + rewrite Lw. clear - W1. induction W1 as [|a b l l' [_ E] _ IH]; simpl; congruence.
  - cbv beta. intros _ P3 s3 _ _ [-> ->]. apply comp_ret. split; auto.
Qed.

Lemma hasl_firstn s es cs n : hasl s es cs -> hasl s (firstn n es) (firstn n cs).
Proof. intro H. revert n. induction H; intros [|n]; simpl; constructor; auto. apply IHForall2. Qed.
Lemma hasl_skipn s es cs n : hasl s es cs -> hasl s (skipn n es) (skipn n cs).
Proof. intro H. revert n. induction H; intros [|n]; simpl; try constructor; auto. Qed.

Lemma zbl_firstn z n m : (m <= n)%nat -> firstn m (zbl z n) = zbl z m.
Proof.
  intro H. unfold zbl. rewrite firstn_map. f_equal.
  replace n with (m + (n - m))%nat by lia. rewrite seq_app, firstn_app, seq_length, Nat.sub_diag.
  simpl. rewrite app_nil_r. apply firstn_all2. rewrite seq_length. lia.
Qed.

Lemma zbl_skipn_zero z n m : 0 <= z < 2 ^ Z.of_nat m -> Forall (fun b => b = 0) (skipn m (zbl z n)).
Proof.
  intro H. unfold zbl. rewrite skipn_map, Forall_map, Forall_forall. intros i Hi.
  assert (m <= i)%nat.
  { destruct (le_lt_dec m n).
    - replace n with (m + (n - m))%nat in Hi by lia.
      rewrite seq_app, skipn_app, seq_length, Nat.sub_diag, skipn_all2 in Hi by (rewrite seq_length; lia).
      apply in_seq in Hi. simpl in Hi. lia.
    - rewrite skipn_all2 in Hi by (rewrite seq_length; lia). destruct Hi. }
  unfold zbit. rewrite <- (Z.mod_small z (2 ^ Z.of_nat m)) by exact H.
  rewrite Z.mod_pow2_bits_high by lia. reflexivity.
Qed.

(** the sum has at least as many bits as the longest input *)
Lemma max_len_acc (ts : list binexpr) : forall m,
  fold_left (fun m (t : binexpr) => Nat.max m (length t)) ts m = Nat.max m (fold_right (fun (t : binexpr) m => Nat.max (length t) m) 0%nat ts).
Proof. induction ts as [|t ts IH]; intro m; simpl; [lia|]. rewrite IH. lia. Qed.

Lemma max_len_le ts : (max_len ts <= zbits (max_sum ts))%nat.
Proof.
  unfold max_len, max_sum. rewrite max_len_acc, max_sum_acc, Nat.max_0_l, Z.add_0_l.
  assert (Hn : forall ts : list binexpr, 0 <= fold_right (fun (t : binexpr) s => (2 ^ Z.of_nat (length t) - 1) + s) 0 ts).
  { clear. induction ts as [|t ts IH]; simpl; [lia|]. pose proof (pow2_pos (length t)). lia. }
  set (m := fold_right _ 0%nat ts).
  assert (G : 2 ^ Z.of_nat m - 1 <= fold_right (fun (t : binexpr) s => (2 ^ Z.of_nat (length t) - 1) + s) 0 ts).
  { unfold m. clear m. induction ts as [|t ts IH]; cbn [fold_right]; [simpl; lia|].
    specialize (Hn ts). pose proof (pow2_pos (length t)).
    destruct (Nat.max_spec (length t) (fold_right (fun (t : binexpr) m => Nat.max (length t) m) 0%nat ts)) as [[_ ->]|[_ ->]]; lia. }
  specialize (Hn ts). destruct m as [|m']; [lia|].
  pose proof (pow2_S m'). pose proof (pow2_pos m'). apply zbits_lower. lia.
Qed.

Lemma cmpl_bs_ignoring P s ts ls : Forall2 (hasl s) ts ls -> Forall (Forall is_bit) ls ->
  (zbits (max_sum ts) < max_bits)%nat ->
  comp D P s (binary_summation_ignoring_overflow ts)
    (done P (fun r s' => hasl s' r (zbl (zlsum (map bits_val ls)) (max_len ts)))).
Proof using Hp.
  intros Ht Hb Hm. unfold binary_summation_ignoring_overflow.
  cbind (apply cmpl_binary_summation; [exact Ht|exact Hb|exact Hm]). intros r P1 s1 X1 G1 [-> Hr].
  pose proof (max_len_le ts) as Hl.
  eapply comp_lift with (a := firstn (max_len ts) r).
  - unfold bin_truncate, oassert. rewrite (hasl_length _ _ _ Hr), zbl_length.
    destruct (Nat.leb_spec (max_len ts) (zbits (max_sum ts))); [reflexivity|lia].
  - split; auto. rewrite <- (zbl_firstn _ _ _ Hl). apply hasl_firstn, Hr.
Qed.

Lemma bits_val_all0 l : Forall (fun b => b = 0) l -> bits_val l = 0.
Proof. induction 1; [reflexivity|cbn [bits_val]; lia]. Qed.

Lemma cmpl_binary_assert_zero P s x l : (2 <= max_bits)%nat -> hasl s x l -> Forall (fun b => b = 0) l ->
  comp D P s (binary_assert_zero x) (done P (fun _ _ => True)).
Proof using Hp.
  intros H4 Hx Hz. unfold binary_assert_zero.
  eapply comp_liftb; [unfold osub; destruct (Nat.leb_spec 1 max_bits); [reflexivity|lia]|].
  unfold bin_chunks, chunks. destruct (Nat.eqb_spec (max_bits - 1) 0); [lia|].
  eapply comp_liftb; [reflexivity|].
  assert (Fo : Forall (fun e => has s e 0) x).
  { clear - Hx Hz. revert Hz. induction Hx; intro Hz; constructor; inversion Hz; subst; auto. }
  pose proof (chunks_fuel_Forall _ (max_bits - 1)%nat (length x) x Fo) as Fc.
  eapply comp_bind; [apply comp_bmap with (R := fun _ _ _ => True); [auto|]|cbv beta].
  - intros ch s1 Hch X1. rewrite Forall_forall in Fc. destruct (Fc ch Hch) as (Fh & Lh).
    assert (Hl : hasl s1 ch (map (fun _ => 0) ch)).
    { clear - Fh X1. induction Fh; simpl; constructor; auto. eapply has_ext; eauto. }
    assert (Hz' : Forall (fun b => b = 0) (map (fun _ : expr => 0) ch)) by (rewrite Forall_map, Forall_forall; auto).
    destruct (hasl_join s1 ch _ Hl) as (e & Ee & He).
    + eapply Forall_impl; [|exact Hz']. intros a ->. left. reflexivity.
    + pose proof (pow2_le _ _ Lh). pose proof (pow2_lt_order Hord (max_bits - 1) ltac:(lia)). lia.
    + eapply comp_liftb; [exact Ee|]. rewrite (bits_val_all0 _ Hz'), (mod_small_0 Hp) in He.
      cweaken (apply (cmpl_assert_zero Hp), He). intros ? P2 s2 _ _ [-> ->]. split; auto.
  - intros _l P1 s1 _ _ [-> _]. apply comp_ret. split; auto.
Qed.

Lemma cmpl_bs_asserting P s ts ls : (2 <= max_bits)%nat -> Forall2 (hasl s) ts ls -> Forall (Forall is_bit) ls ->
  (zbits (max_sum ts) < max_bits)%nat -> zlsum (map bits_val ls) < 2 ^ Z.of_nat (max_len ts) ->
  comp D P s (binary_summation_asserting_no_overflow ts)
    (done P (fun r s' => hasl s' r (zbl (zlsum (map bits_val ls)) (max_len ts)))).
Proof using Hp.
  intros H4 Ht Hb Hm Hlt. unfold binary_summation_asserting_no_overflow.
  destruct (max_sum_bound ts ls s Ht Hb) as (Bd & _).
  cbind (apply cmpl_binary_summation; [exact Ht|exact Hb|exact Hm]). intros r P1 s1 X1 G1 [-> Hr].
  pose proof (max_len_le ts) as Hl. pose proof (hasl_length _ _ _ Hr) as Lr. rewrite zbl_length in Lr.
  eapply comp_liftb.
  { unfold oslice_from, oassert. rewrite Lr. destruct (Nat.leb_spec (max_len ts) (zbits (max_sum ts))); [reflexivity|lia]. }
  cbind (eapply cmpl_binary_assert_zero; [exact H4|apply hasl_skipn; exact Hr|apply zbl_skipn_zero; lia]).
  intros _u P2 s2 X2 G2 [-> _]. carry.
  eapply comp_lift with (a := firstn (max_len ts) r).
  - unfold bin_truncate, oassert. rewrite Lr.
    destruct (Nat.leb_spec (max_len ts) (zbits (max_sum ts))); [reflexivity|lia].
  - split; auto. rewrite <- (zbl_firstn _ _ _ Hl). apply hasl_firstn, Hr.
Qed.

(** ** bitwise operations *)
Lemma cmpl_bitwise_not P s x l : hasl s x l -> Forall is_bit l ->
  comp D P s (bitwise_not x) (done P (fun r s' => hasl s' r (map (fun b => 1 - b) l))).
Proof using Hp.
  intros Hx Hb. unfold bitwise_not.
  assert (G : forall x l, Forall2 (fun e c => has s e c /\ is_bit c) x l -> forall s', ext s s' ->
     comp D P s' (bmap b_not x) (done P (fun r s'' => hasl s'' r (map (fun b => 1 - b) l)))).
  { clear x l Hx Hb. induction 1 as [|e c x l [He Hc] _ IH]; intros s' X'; cbn [bmap map].
    - apply comp_ret. split; auto. constructor.
    - cbind (apply (cmpl_not Hp); [eapply has_ext; [exact X'|exact He]|exact Hc]).
      intros r P1 s1 X1 G1 [-> Hr]. cbind (apply IH; eapply ext_trans; [exact X'|exact X1]).
      intros rs P2 s2 X2 G2 [-> Hrs]. carry. apply comp_ret. split; auto. constructor; auto. }
  apply G; [|apply ext_refl]. clear - Hx Hb. induction Hx; constructor; inversion Hb; subst; auto.
Qed.

Lemma cmpl_bitwise2 op (f : Z -> Z -> Z) P s x y xl yl : 
  (forall s x y a b, has s x a -> has s y b -> is_bit a -> is_bit b -> comp D P s (op x y) (done P (fun r s' => has s' r (f a b)))) ->
  hasl s x xl -> hasl s y yl -> Forall is_bit xl -> Forall is_bit yl -> length x = length y ->
  comp D P s (bitwise2 op x y) (done P (fun r s' => hasl s' r (map (fun p => f (fst p) (snd p)) (combine xl yl)))).
Proof.
  intros Hop Hx Hy Bx By L. unfold bitwise2.
  eapply comp_liftb; [rewrite L, Nat.eqb_refl; reflexivity|].
  pose proof (hasl_length _ _ _ Hx) as Lx. pose proof (hasl_length _ _ _ Hy) as Ly.
  cweaken (apply comp_bmap with (R := fun i e s' => has s' e (f (nth i xl 0) (nth i yl 0)));
    [intros; eapply has_ext; eauto|];
    intros i s1 Hi X1; apply in_seq in Hi; carry;
    destruct (hasl_nth _ _ _ Hx i ltac:(lia)) as (xe & Ex & _ & Hxe);
    destruct (hasl_nth _ _ _ Hy i ltac:(lia)) as (ye & Ey & _ & Hye);
    eapply comp_liftb; [exact Ex|]; eapply comp_liftb; [exact Ey|]; apply Hop; auto;
    [rewrite Forall_forall in Bx; apply Bx, nth_In; lia|rewrite Forall_forall in By; apply By, nth_In; lia]).
  intros r P1 s1 X1 G1 [-> Hr]. split; auto.
  assert (E : map (fun p => f (fst p) (snd p)) (combine xl yl) = map (fun i => f (nth i xl 0) (nth i yl 0)) (seq 0 (length x))).
  { rewrite <- (combine_seq_nth (combine xl yl) (0,0)) at 1. rewrite map_map, combine_length.
    replace (Nat.min (length xl) (length yl)) with (length x) by lia.
    apply map_ext_in. intros i Hi. apply in_seq in Hi. rewrite combine_nth by lia. reflexivity. }
  rewrite E. clear - Hr. unfold hasl. induction Hr; simpl; constructor; auto.
Qed.

(** ** random access *)
Definition index_fit (len bits : nat) : Prop :=
  (1 <= len /\ len <= 2 ^ bits /\ (bits = 0 \/ 2 ^ (bits - 1) < len))%nat.

Lemma index_bits_fit len : (1 <= len)%nat -> index_fit len (index_bits len).
Proof.
  intro H. unfold index_bits.
  assert (G : forall fuel bits, (bits = 0 \/ 2 ^ (bits - 1) < len)%nat -> (len <= fuel + bits)%nat ->
     index_fit len (index_bits_loop fuel bits len)).
  { induction fuel as [|fuel IH]; intros bits Hb Hf; cbn [index_bits_loop].
    - repeat split; auto. pose proof (Nat.pow_gt_lin_r 2 bits ltac:(lia)). lia.
    - destruct (Nat.ltb_spec (2 ^ bits) len).
      + apply IH; [right; replace (S bits - 1)%nat with bits by lia; assumption|lia].
      + repeat split; auto. }
  apply G; [left; reflexivity|lia].
Qed.

Lemma cmpl_select_pairs P l c : is_bit c -> forall n items vs s, (length items <= n)%nat ->
  has s l c -> hasl s items vs ->
  comp D P s (select_pairs l items) (done P (fun ps s' => (exists us, hasl s' ps us) /\
     (2 * length ps = length items \/ 2 * length ps = S (length items))%nat)).
Proof using Hp.
  intro Hb. induction n as [|n IH]; intros items vs s L Hl Hi.
  - destruct items; [|simpl in L; lia]. apply comp_ret. split; auto. split; [exists []; constructor|]. left. reflexivity.
  - inversion Hi as [|a va items1 vs1 Ha Hi1]; subst; [|inversion Hi1 as [|b vb items2 vs2 Hb2 Hi2]; subst].
    + apply comp_ret. split; auto. split; [exists []; constructor|]. left. reflexivity.
    + apply comp_ret. split; auto. split; [exists [va]; constructor; auto|]. right. reflexivity.
    + cbn [select_pairs]. cbind (apply (cmpl_selection Hp); [exact Hl|exact Hb2|exact Ha|exact Hb]).
      intros r P1 s1 X1 G1 [-> Hr]. fold (hasl s items2 vs2) in Hi2. carry.
      cbind (eapply IH; [simpl in L; lia|exact Hl|exact Hi2]).
      intros rs P2 s2 X2 G2 [-> [(us & Hus) Hlen]]. carry. apply comp_ret. split; auto.
      split; [eexists; constructor; eassumption|]. simpl. lia.
Qed.

Lemma cmpl_rab P : forall bits bl s items vs, hasl s bits bl -> Forall is_bit bl -> hasl s items vs ->
  index_fit (length items) (length bits) ->
  comp D P s (random_access_binary items bits) (done P (fun r s' => exists c, has s' r c)).
Proof using Hp.
  induction bits as [|b bits IH]; intros bl s items vs Hb Bb Hi Fit.
  - destruct Fit as (A & B & _). simpl in B. destruct items as [|i [|]]; simpl in *; try lia.
    eapply comp_liftb; [reflexivity|]. apply comp_ret. split; auto. inversion Hi; subst. eauto.
  - inversion Hb as [|? c ? bl' Hbc Hbl]; subst. inversion Bb as [|? ? Bc Bbl]; subst.
    destruct Fit as (A & B & C). destruct C as [C|C]; [discriminate|].
    replace (length (b :: bits) - 1)%nat with (length bits) in C by (simpl; lia).
    pose proof (Nat.pow_nonzero 2 (length bits) ltac:(lia)) as Hpos.
    cbn [length] in B. rewrite Nat.pow_succ_r' in B.
    assert (E : random_access_binary items (b :: bits) = (parents <- select_pairs b items ;; random_access_binary parents bits)).
    { destruct items as [|i [|]]; [reflexivity|simpl in C; lia|reflexivity]. }
    rewrite E. cbind (eapply cmpl_select_pairs; [exact Bc|apply le_n|exact Hbc|exact Hi]).
    intros ps P1 s1 X1 G1 [-> [(us & Hus) Hlen]]. fold (hasl s bits bl') in Hbl. carry.
    eapply IH; [exact Hbl|assumption|exact Hus|].
    repeat split; [lia|lia|]. destruct bits as [|b' bits]; [left; reflexivity|right].
    cbn [length] in *. rewrite Nat.pow_succ_r' in *. replace (S (length bits) - 1)%nat with (length bits) by lia. lia.
Qed.

(** an honest run also satisfies everything soundness promises *)
Lemma comp_sound {A} P s (m : B A) Q (R : witness -> A -> Prop) : comp D P s m Q ->
  (forall w, wf_witness w -> sound w m (R w)) ->
  comp D P s m (fun a P' s' => Q a P' s' /\ R (wt s') a).
Proof.
  intros H S b Hb. destruct (H b Hb) as (a & b' & P' & s' & E & Hon' & X & HQ).
  exists a, b', P', s'. split; auto. split; auto. split; auto. split; auto.
  destruct Hon' as [_ Hh]. apply (S (wt s') (h_wf _ _ _ _ Hh) b a b' E).
  unfold sat. eapply Forall_impl; [|apply (h_sat _ _ _ _ Hh)]. cbv beta. tauto.
Qed.

Lemma cmpl_random_access P s items vs i a : hasl s items vs -> has s i a ->
  (1 <= length items)%nat -> (index_bits (length items) < max_bits)%nat ->
  a < 2 ^ Z.of_nat (index_bits (length items)) ->
  comp D P s (random_access items i) (done P (fun r s' =>
     has s' r (nth (tree_pos (index_bits (length items)) (length items) (Z.to_nat a)) vs 0))).
Proof using Hp.
  intros Hi Ha H1 Hm Hlt.
  eapply comp_weaken.
  - apply comp_sound with (Q := done P (fun r s' => exists c, has s' r c)) (R := fun w r => 
      ev w r = ev w (nth (tree_pos (index_bits (length items)) (length items) (Z.to_nat (ev w i))) items e_zero)).
    + unfold random_access. cbind (apply (cmpl_split_bounded Hp); [exact Ha|exact Hlt|exact Hm]).
      intros bits P1 s1 X1 G1 [-> Hb]. carry.
      eapply cmpl_rab; [exact Hb|apply zbl_bits|exact Hi|].
      rewrite (hasl_length _ _ _ Hb), zbl_length. apply index_bits_fit, H1.
    + intros w Hw. eapply sound_weaken; [apply (snd_random_access Hp w Hw)|]. cbv beta. tauto.
  - cbv beta. intros r P1 s1 X1 G1 [[-> (c & Hc)] HR]. carry. split; auto.
    destruct Hc as [Oc Ec]. split; [exact Oc|]. rewrite HR. destruct Ha as [_ Ea]. rewrite Ea.
    destruct (hasl_map_ev _ _ _ Hi) as [<- _]. rewrite <- (map_nth (ev (wt s1))), (ev_zero Hord). reflexivity.
Qed.

Lemma index_bits_cover len : (len <= 2 ^ index_bits len)%nat.
Proof.
  destruct (Nat.eq_dec len 0) as [->|H]; [simpl; lia|]. apply index_bits_fit. lia.
Qed.

End GadgetComplete.

(** * End to end *)
Section EndToEnd.
Context {F : Field}.

(** Builder with [n] fresh input wires 1..n. *)
Lemma inputs_builder n : b_wires n b_new = Ok (seq 1 n, mkB (S n) [] []).
Proof. rewrite wires_spec. reflexivity. Qed.

Lemma complete_run {A} (Hp : prime order) vals (m : B A) (Q : A -> st -> Prop) : Forall infield vals ->
  comp (fun k => (k <= length vals)%nat) [] (S (length vals), input_witness vals) m (done [] Q) ->
  forall v0, input_values vals v0 ->
  exists r b' v s, m (mkB (S (length vals)) [] []) = Ok (r, b') /\ execute (build b') v0 = Ok (true, v) /\
    Q r s /\ ext (S (length vals), input_witness vals) s /\ forall k, (k < nx s)%nat -> m_get k v = Some (wt s k).
Proof.
  intros Hv H v0 (I1 & I2 & I3).
  destruct (H (mkB (S (length vals)) [] [])) as (r & b' & P' & s & E & [Hn Hh] & X & [-> HQ]).
  - split; [reflexivity|]. constructor.
    + split; [reflexivity|]. intros [|k]; simpl; [pose proof (prime_ge2 Hp); lia|].
      destruct (le_lt_dec (length vals) k); [rewrite nth_overflow by assumption; pose proof (prime_ge2 Hp); lia|].
      rewrite Forall_forall in Hv. apply Hv, nth_In. assumption.
    + unfold ONE. lia.
    + simpl. lia.
    + constructor.
    + exists []. simpl. split; [constructor|]. split; [constructor|]. split; [tauto|]. intros k Hk. left. lia.
  - destruct (honest_execute (prime_ge2 Hp) b' _ _ v0 Hh) as (v & Ev & Gv).
    + intros k Hk. destruct X as [_ X]. simpl in X. rewrite X by lia.
      destruct k as [|k]; [exact I1|]. apply I2. lia.
    + intros k _ Hk. apply I3. lia.
    + exists r, b', v, s. repeat split; auto; try apply X. rewrite <- Hn. exact Gv.
Qed.

Lemma has_run (Hp : prime order) s v e c : (forall k, (k < nx s)%nat -> m_get k v = Some (wt s k)) -> has s e c ->
  e_evaluate v e = Ok c.
Proof. intros Hv H. eapply (eval_has Hp); [exact H|]. intros i Hi. apply Hv. apply (deps_lt _ _ _ H), Hi. Qed.

End EndToEnd.
