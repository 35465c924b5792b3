(** Completeness of the basic gadgets. *)
From Coq Require Import ZArith List Bool Arith Lia Znumtheory Permutation.
From Verif Require Import Base FieldM FieldP ExprM BuilderM GadgetsM Spec ExprP BitsP MonoP SoundP HonestP.
Import ListNotations.
Open Scope Z_scope.

(** carry known values over to a later state *)
Ltac carry := repeat match goal with
  | X : ext ?s ?s', H : has ?s _ _ |- _ => apply (has_ext _ _ _ _ X) in H
  | X : ext ?s ?s', H : hasw ?s _ _ |- _ => apply (hasw_ext _ _ _ _ X) in H
  | X : ext ?s ?s', H : hasl ?s _ _ |- _ => apply (hasl_ext _ _ _ _ X) in H
  | X : ext ?s ?s', H : Forall2 (hasw ?s) _ _ |- _ => apply (haswl_ext _ _ _ _ X) in H
  end.
Tactic Notation "cbind" tactic(t) := eapply comp_bind; [ solve [t] | cbv beta ].
Tactic Notation "cweaken" tactic(t) := eapply comp_weaken; [ solve [t] | cbv beta ].

Section Complete.
Context {F : Field} (Hp : prime order) (H2 : 2 < order).
Context (D : nat -> Prop).
Let Hord : 2 <= order := prime_ge2 Hp.

Lemma comp_liftb {A C} P s (o : outcome A) a (k : A -> B C) Q : o = Ok a ->
  comp D P s (k a) Q -> comp D P s (bbind (blift o) k) Q.
Proof.
  intros -> H b Hb. destruct (H b Hb) as (c & b' & R). exists c, b'. exact R.
Qed.

(** ** values of compound expressions *)
Lemma has_infield s e a : has s e a -> infield a.
Proof using Hp. intros [_ <-]. apply ev_infield, Hord. Qed.
Lemma has_add s x y a b : has s x a -> has s y b -> has s (e_add x y) ((a + b) mod order).
Proof using Hp. intros [O1 <-] [O2 <-]. split; [apply over_add; auto|apply (ev_add_mod Hp)]. Qed.
Lemma has_sub s x y a b : has s x a -> has s y b -> has s (e_sub x y) ((a - b) mod order).
Proof using Hp. intros [O1 <-] [O2 <-]. split; [apply over_sub; auto|apply (ev_sub_mod Hp)]. Qed.
Lemma has_scale s x a c : has s x a -> has s (e_scale x c) ((a * c) mod order).
Proof using Hp. intros [O1 <-]. split; [apply over_scale; auto|apply (ev_scale_mod Hp)]. Qed.
Lemma has_neg s x a : has s x a -> has s (e_neg x) ((- a) mod order).
Proof using Hp.
  intros [O1 <-]. split; [apply over_neg; auto|]. rewrite (ev_neg Hord).
  rewrite <- (Z.mod_small (fopp _) order); [apply (fopp_eqm Hord)|apply infield_opp; [apply Hord|apply ev_infield, Hord]].
Qed.
Lemma has_zero s : has s e_zero 0.
Proof using Hp. split; [apply over_zero|apply ev_zero, Hord]. Qed.
Lemma has_const s c : good s -> infield c -> has s (e_const c) c.
Proof using Hp. intros [[W _] N] I. split; [apply over_const; exact N|apply ev_const; auto]. Qed.
Lemma has_one s : good s -> has s e_one 1.
Proof using Hp. intro G. apply has_const; auto. apply infield_1, Hord. Qed.
Lemma has_bool s b : good s -> has s (e_bool b) (b2z b).
Proof using Hp. intro G. apply has_const; auto. destruct b; [apply infield_1|apply infield_0]; apply Hord. Qed.
Lemma has_wire s k c : good s -> hasw s k c -> has s (e_wire k) c.
Proof using Hp.
  intros [[_ W] _] [N <-]. split; [apply over_wire; exact N|apply ev_wire; [apply Hord|apply W]].
Qed.
Lemma has_eq s x a b : has s x a -> a = b -> has s x b.
Proof. intros H <-. exact H. Qed.
Lemma has_fun s x a b : has s x a -> has s x b -> a = b.
Proof. intros [_ <-] [_ <-]. reflexivity. Qed.
Lemma hasw_infield s k c : good s -> hasw s k c -> infield c.
Proof. intros [[_ W] _] [_ <-]. apply W. Qed.
Lemma mod_infield x : infield (x mod order).
Proof using Hp. apply infield_mod, Hord. Qed.

(** ** generators *)
Lemma eval_has s x a v : has s x a -> (forall i, In i (e_deps x) -> m_get i v = Some (wt s i)) ->
  e_evaluate v x = Ok a.
Proof using Hp. intros [_ <-] H. apply e_evaluate_deps; [apply Hord|exact H]. Qed.

Lemma gen_ok_one w deps run k :
  (forall v, (forall i, In i deps -> m_get i v = Some (w i)) -> run v = v_set k (w k) v) ->
  gen_ok w (mkG deps run) [k].
Proof.
  intros H v Hi Hn. simpl in *. rewrite H by exact Hi.
  destruct (v_set_fresh k (w k) v (Hn k (or_introl eq_refl))) as (v' & -> & Hv). exists v'. split; auto.
  intro j. rewrite Hv. unfold memb. simpl. destruct (Nat.eqb_spec j k); subst; reflexivity.
Qed.

(** setting several wires one after the other *)
Lemma ofold_sets {A} (w : witness) (l : list A) (key : A -> nat) (f : values -> A -> outcome values) :
  (forall a v, In a l -> f v a = v_set (key a) (w (key a)) v) -> NoDup (map key l) ->
  forall v, (forall k, In k (map key l) -> m_get k v = None) ->
  exists v', ofold f l v = Ok v' /\ forall j, m_get j v' = if memb j (map key l) then Some (w j) else m_get j v.
Proof.
  induction l as [|a l IH]; intros Hf ND v Hn; simpl.
  - exists v. split; auto.
  - rewrite Hf by (left; reflexivity).
    destruct (v_set_fresh (key a) (w (key a)) v (Hn _ (or_introl eq_refl))) as (v1 & -> & Hv1). simpl.
    inversion ND as [|? ? Ha ND']; subst.
    destruct (IH (fun a' v' Ha' => Hf a' v' (or_intror Ha')) ND' v1) as (v' & -> & Hv').
    + intros k Hk. rewrite Hv1. destruct (Nat.eqb_spec k (key a)) as [->|]; [contradiction|].
      apply Hn. right. exact Hk.
    + exists v'. split; auto. intro j. rewrite Hv', Hv1. unfold memb. simpl.
      destruct (Nat.eqb_spec j (key a)) as [->|]; simpl; auto.
      destruct (existsb (Nat.eqb (key a)) (map key l)); reflexivity.
Qed.

Lemma deps_lt s x a : has s x a -> forall i, In i (e_deps x) -> (i < nx s)%nat.
Proof. intros [O _] i Hi. apply O, Hi. Qed.

Lemma comp_gen1 P s k deps run c : hasw s k c -> (forall i, In i deps -> (i < k)%nat) ->
  (forall v, (forall i, In i deps -> m_get i v = Some (wt s i)) -> run v = v_set k c v) ->
  comp D (k :: P) s (b_generator deps run) (fun _ P' s' => P' = P /\ s' = s).
Proof.
  intros [Nk <-] Hlt Hrun. apply comp_generator with (o := [k]); auto.
  - intros i Hi. specialize (Hlt i Hi). lia.
  - intros i k' Hi [<-|[]]. auto.
  - apply gen_ok_one. exact Hrun.
Qed.

(** several outputs, set by [run] in one go *)
Lemma comp_gens P P0 s ks deps run : Permutation P (ks ++ P0) ->
  (forall k, In k ks -> (k < nx s)%nat) -> (forall i, In i deps -> (i < nx s)%nat) ->
  (forall i k, In i deps -> In k ks -> (i < k)%nat) ->
  (forall v, (forall i, In i deps -> m_get i v = Some (wt s i)) -> (forall k, In k ks -> m_get k v = None) ->
     exists v', run v = Ok v' /\ forall j, m_get j v' = if memb j ks then Some (wt s j) else m_get j v) ->
  comp D P s (b_generator deps run) (fun _ P' s' => P' = P0 /\ s' = s).
Proof.
  intros HP Hk Hlt Ho Hrun. apply comp_generator with (o := ks); auto.
Qed.

(** ** basic assertions *)
Lemma cmpl_assert_equal P s x y a : has s x a -> has s y a ->
  comp D P s (assert_equal x y) (fun _ P' s' => P' = P /\ s' = s).
Proof using Hp.
  intros Hx Hy. apply comp_hon. intros G _ _. eapply comp_assert_product; [exact Hx|apply has_one, G|exact Hy|].
  rewrite Z.mul_1_r. symmetry. apply Z.mod_small. apply (has_infield s x a Hx).
Qed.
Lemma cmpl_assert_zero P s x : has s x 0 -> comp D P s (assert_zero x) (fun _ P' s' => P' = P /\ s' = s).
Proof using Hp. intro Hx. eapply cmpl_assert_equal; [exact Hx|apply has_zero]. Qed.
Lemma cmpl_assert_true P s x : has s x 1 -> comp D P s (assert_true x) (fun _ P' s' => P' = P /\ s' = s).
Proof using Hp.
  intro Hx. apply comp_hon. intros G _ _. eapply cmpl_assert_equal; [exact Hx|apply has_one, G].
Qed.
Lemma cmpl_assert_false P s x : has s x 0 -> comp D P s (assert_false x) (fun _ P' s' => P' = P /\ s' = s).
Proof using Hp. intro Hx. eapply cmpl_assert_equal; [exact Hx|apply has_zero]. Qed.

Lemma cmpl_assert_boolean P s x a : has s x a -> is_bit a ->
  comp D P s (assert_boolean x) (fun r P' s' => r = x /\ P' = P /\ s' = s).
Proof using Hp.
  intros Hx Hb. apply comp_hon. intros G _ _. unfold assert_boolean.
  cbind (eapply comp_assert_product; [exact Hx|apply has_sub; [exact Hx|apply has_one, G]|apply has_zero|
    destruct Hb as [->| ->]; [rewrite Z.mul_0_l|rewrite Z.sub_diag, (mod_small_0 Hp), Z.mul_0_r]; symmetry; apply (mod_small_0 Hp)]).
  intros _ P1 s1 _ _ [-> ->]. apply comp_ret. auto.
Qed.

(** ** wires *)
Lemma cmpl_wires l : Forall infield l -> forall P s,
  comp D P s (b_wires (length l)) (fun ws P' s' => ws = seq (nx s) (length l) /\
     Permutation P' (ws ++ P) /\ nx s' = (nx s + length l)%nat /\ Forall2 (hasw s') ws l).
Proof using Hp.
  unfold b_wires. generalize 0%nat as k0. intros k0 Hl. revert k0. induction Hl as [|x l Hx _ IH]; intros k0 P s.
  - simpl. apply comp_ret. rewrite Nat.add_0_r. auto.
  - cbn [length seq bmap]. cbind (apply comp_wire; exact Hx).
    intros k P1 s1 X1 G1 (-> & -> & N1 & W1). cbind (apply IH).
    intros ws P2 s2 X2 G2 (-> & Q2 & N2 & W2). apply comp_ret. rewrite N1 in *. carry. repeat split.
    + simpl. rewrite Q2. apply Permutation_sym, Permutation_middle.
    + lia.
    + constructor; auto.
Qed.

Lemma cmpl_binary_wire l : Forall is_bit l -> forall P s,
  comp D P s (binary_wire (length l)) (fun ws P' s' => ws = seq (nx s) (length l) /\
     Permutation P' (ws ++ P) /\ nx s' = (nx s + length l)%nat /\ Forall2 (hasw s') ws l).
Proof using Hp.
  unfold binary_wire. generalize 0%nat as k0. intros k0 Hl. revert k0. induction Hl as [|x l Hx _ IH]; intros k0 P s.
  - simpl. apply comp_ret. rewrite Nat.add_0_r. auto.
  - cbn [length seq bmap]. unfold boolean_wire at 1.
    eapply comp_bind with (Q := fun k P' s' => k = nx s /\ P' = k :: P /\ nx s' = S (nx s) /\ hasw s' k x).
    { cbind (apply comp_wire; exact (is_bit_infield Hp x Hx)).
      intros k P1 s1 X1 G1 (-> & -> & N1 & W1).
      cbind (eapply cmpl_assert_boolean; [apply has_wire; [exact G1|exact W1]|exact Hx]).
      intros r P2 s2 _ _ (-> & -> & ->). apply comp_ret. auto. }
    intros k P1 s1 X1 G1 (-> & -> & N1 & W1). cbind (apply IH).
    intros ws P2 s2 X2 G2 (-> & Q2 & N2 & W2). apply comp_ret. rewrite N1 in *. carry. repeat split.
    + simpl. rewrite Q2. apply Permutation_sym, Permutation_middle.
    + lia.
    + constructor; auto.
Qed.

Lemma hasw_nth s ws l : Forall2 (hasw s) ws l -> forall i, (i < length ws)%nat -> hasw s (nth i ws 0%nat) (nth i l 0).
Proof. induction 1; intros [|i] Hi; simpl in *; try lia; auto. apply IHForall2. lia. Qed.
Lemma hasl_wires s ws l : good s -> Forall2 (hasw s) ws l -> hasl s (bin_of_wires ws) l.
Proof using Hp. intros G H. unfold bin_of_wires. induction H; simpl; constructor; auto. apply has_wire; auto. Qed.

(** ** field arithmetic *)
Lemma as_const_has s x a c : good s -> has s x a -> e_as_constant x = Some c -> a = c mod order.
Proof using Hp.
  intros G [_ <-] E. pose proof (ev_as_constant Hord (wt s) x c (proj1 (proj1 G)) E) as H.
  unfold feqm in H. rewrite <- H. symmetry. apply (ev_mod Hp).
Qed.

Lemma cmpl_product P s x y a b : has s x a -> has s y b ->
  comp D P s (product x y) (done P (fun r s' => has s' r ((a * b) mod order))).
Proof using Hp.
  intros Hx Hy. apply comp_hon. intros G _ _. unfold product. destruct (e_as_constant x) as [c|] eqn:Ex.
  - apply comp_ret. split; auto. apply (as_const_has s) with (a := a) in Ex; auto.
    eapply has_eq; [apply has_scale; exact Hy|]. rewrite Ex, Zmult_mod_idemp_l. f_equal. ring.
  - destruct (e_as_constant y) as [c|] eqn:Ey.
    + apply comp_ret. split; auto. apply (as_const_has s) with (a := b) in Ey; auto.
      eapply has_eq; [apply has_scale; exact Hx|]. rewrite Ey, Zmult_mod_idemp_r. reflexivity.
    + cbind (apply comp_wire; exact (mod_infield (a * b))). pose proof (deps_lt s x a Hx) as Lx. pose proof (deps_lt s y b Hy) as Ly.
      intros k P1 s1 X1 G1 (-> & -> & N1 & W1). carry.
      cbind (eapply comp_assert_product; [exact Hx|exact Hy|apply has_wire; [exact G1|exact W1]|reflexivity]).
      intros _ P2 s2 _ _ [-> ->].
      cbind (eapply comp_gen1; [exact W1|intros i Hi; apply in_app_or in Hi; destruct Hi; auto|
        intros v Hv; rewrite (eval_has s1 x a v Hx), (eval_has s1 y b v Hy)
          by (intros; apply Hv, in_or_app; auto); reflexivity]).
      intros _ P3 s3 _ _ [-> ->]. apply comp_ret. split; auto. apply has_wire; auto.
Qed.

Ltac deps_of H := match type of H with has ?s ?x ?a => pose proof (deps_lt s x a H) end.

Lemma cmpl_exponentiation P s x a e : 0 <= e -> has s x a ->
  comp D P s (exponentiation x e) (done P (fun r s' => has s' r ((a ^ e) mod order))).
Proof using Hp.
  intros He Hx. apply comp_hon. intros G _ _. unfold exponentiation.
  eapply comp_bind.
  - apply comp_bfold_seq with (I := fun i (st : expr * expr) s' =>
        has s' (fst st) ((a ^ (e mod 2 ^ Z.of_nat i)) mod order) /\
        ((0 < i)%nat -> has s' (snd st) ((a ^ (2 ^ (Z.of_nat i - 1))) mod order))).
    + change (2 ^ Z.of_nat 0) with 1. rewrite Z.mod_1_r, Z.pow_0_r, (mod_small_1 Hp). split; [apply has_one, G|lia].
    + intros i [pr sq] s1 Hi X1 [H1 H2']. simpl fst in *. simpl snd in *. carry.
      eapply comp_bind with (Q := done P (fun r s' => has s' r ((a ^ (2 ^ Z.of_nat i)) mod order))).
      * destruct (Nat.eqb_spec i 0) as [->|Ni].
        -- apply comp_ret. split; auto. eapply has_eq; [exact Hx|]. change (2 ^ Z.of_nat 0) with 1.
           rewrite Z.pow_1_r. symmetry. apply Z.mod_small, (has_infield s1 x a Hx).
        -- specialize (H2' ltac:(lia)). cweaken (apply cmpl_product; [exact H2'|exact H2']).
           intros r P' s' _ _ [-> Hr]. split; auto. eapply has_eq; [exact Hr|].
           rewrite <- Zmult_mod, <- Z.pow_add_r by (apply Z.pow_nonneg; lia). do 2 f_equal.
           replace (Z.of_nat i) with (Z.succ (Z.of_nat i - 1)) at 3 by lia.
           rewrite Z.pow_succ_r by lia. lia.
      * intros sq' P2 s2 X2 G2 [-> Hsq]. carry.
        assert (Em : e mod 2 ^ Z.of_nat (S i) = e mod 2 ^ Z.of_nat i
                     + 2 ^ Z.of_nat i * b2z (el_bit e i)).
        { rewrite pow2_S, Z.mul_comm, Z.rem_mul_r by (pose proof (pow2_pos i); lia).
          f_equal. f_equal. unfold el_bit, zbit. rewrite <- Z.testbit_spec' by lia.
          destruct (Z.testbit e (Z.of_nat i)); reflexivity. }
        eapply comp_bind with (Q := done P (fun r s' => has s' r ((a ^ (e mod 2 ^ Z.of_nat (S i))) mod order))).
        -- destruct (el_bit e i).
           ++ cweaken (apply cmpl_product; [exact H1|exact Hsq]).
              intros r P' s' _ _ [-> Hr]. split; auto. eapply has_eq; [exact Hr|].
              rewrite <- Zmult_mod, Em. simpl b2z. rewrite Z.mul_1_r.
              rewrite Z.pow_add_r; [reflexivity| |apply Z.pow_nonneg; lia].
              apply Z.mod_pos_bound, pow2_pos.
           ++ apply comp_ret. split; auto. rewrite Em. simpl b2z. rewrite Z.mul_0_r, Z.add_0_r. exact H1.
        -- intros pr' P3 s3 X3 G3 [-> Hpr]. carry. apply comp_ret. split; auto. simpl fst. simpl snd. split; auto.
           intros _. eapply has_eq; [exact Hsq|]. do 3 f_equal. lia.
  - cbv beta. intros [pr sq] P1 s1 X1 G1 [-> [H _]]. apply comp_ret. split; auto. simpl fst in *.
    eapply has_eq; [exact H|]. do 2 f_equal. apply Z.mod_small. split; auto. apply (zbits_spec e He).
Qed.

Lemma cmpl_inverse P s x a : has s x a -> a <> 0 ->
  comp D P s (inverse x) (done P (fun r s' => has s' r (finvv a))).
Proof using Hp H2.
  intros Hx Ha. pose proof (has_infield s x a Hx) as Ia. unfold inverse. deps_of Hx.
  cbind (apply comp_wire; exact (finvv_infield Hp a Hord)). intros k P1 s1 X1 G1 (-> & -> & N1 & W1). carry.
  cbind (eapply comp_assert_product; [exact Hx|apply has_wire; [exact G1|exact W1]|apply has_one, G1|
    symmetry; apply (finvv_correct Hp a Ia Ha)]).
  intros _ P2 s2 _ _ [-> ->].
  cbind (eapply comp_gen1; [exact W1|assumption|
    intros v Hv; rewrite (eval_has s1 x a v Hx) by assumption; simpl; rewrite (finv_spec Hp a H2 Ia Ha); reflexivity]).
  intros _ P3 s3 _ _ [-> ->]. apply comp_ret. split; auto. apply has_wire; auto.
Qed.

Lemma cmpl_assert_nonzero P s x a : has s x a -> a <> 0 ->
  comp D P s (assert_nonzero x) (done P (fun _ _ => True)).
Proof using Hp H2.
  intros Hx Ha. unfold assert_nonzero. cbind (eapply cmpl_inverse; eauto).
  intros r P1 s1 _ _ [-> _]. apply comp_ret. split; auto.
Qed.

Lemma sub_nonzero a b : infield a -> infield b -> a <> b -> (a - b) mod order <> 0.
Proof using Hp. intros Ia Ib Hn E. apply Hn. apply (mod_sub_zero Hp); auto. Qed.

Lemma cmpl_assert_nonequal P s x y a b : has s x a -> has s y b -> a <> b ->
  comp D P s (assert_nonequal x y) (done P (fun _ _ => True)).
Proof using Hp H2.
  intros Hx Hy Hn. unfold assert_nonequal. eapply cmpl_assert_nonzero; [apply has_sub; eauto|].
  apply sub_nonzero; auto; eapply has_infield; eauto.
Qed.

Lemma fmul_inv_div a : infield a -> a <> 0 -> fdiv fone a = Ok (finvv a).
Proof using Hp H2.
  intros Ia Ha. unfold fdiv. rewrite (finv_spec Hp a H2 Ia Ha). simpl. unfold fmul, fone.
  rewrite Z.mul_1_l. f_equal. apply Z.mod_small, (finvv_infield Hp a Hord).
Qed.

Lemma cmpl_nonzero P s x a : has s x a ->
  comp D P s (nonzero x) (done P (fun r s' => has s' r (if a =? 0 then 0 else 1))).
Proof using Hp H2.
  intros Hx. pose proof (has_infield s x a Hx) as Ia. unfold nonzero. deps_of Hx.
  set (yv := if a =? 0 then 0 else 1). set (mv := if a =? 0 then 1 else finvv a).
  assert (Iy : infield yv) by (unfold yv; destruct (a =? 0); [apply infield_0|apply infield_1]; apply Hord).
  assert (Im : infield mv) by (unfold mv; destruct (a =? 0); [apply infield_1, Hord|exact (finvv_infield Hp a Hord)]).
  cbind (apply comp_wire; exact Iy). intros k P1 s1 X1 G1 (-> & -> & N1 & W1). carry.
  cbind (apply comp_wire; exact Im). intros k P2 s2 X2 G2 (-> & -> & N2 & W2). carry. rewrite N1 in *.
  cbind (eapply comp_assert_product; [exact Hx|apply has_wire; [exact G2|exact W2]|apply has_wire; [exact G2|exact W1]|
    unfold yv, mv; destruct (Z.eqb_spec a 0) as [->|Ha];
      [symmetry; apply (mod_small_0 Hp)|symmetry; apply (finvv_correct Hp a Ia Ha)]]).
  intros _ P3 s3 _ _ [-> ->].
  cbind (eapply comp_assert_product; [apply has_sub; [apply has_one, G2|apply has_wire; [exact G2|exact W1]]|exact Hx|apply has_zero|
    unfold yv; destruct (Z.eqb_spec a 0) as [->|Ha];
      [rewrite Z.mul_0_r; symmetry; apply (mod_small_0 Hp)|rewrite Z.sub_diag, (mod_small_0 Hp), Z.mul_0_l; symmetry; apply (mod_small_0 Hp)]]).
  intros _ P4 s4 _ _ [-> ->].
  eapply comp_bind; [eapply comp_gens with (ks := [S (nx s); nx s]) (P0 := P)|].
  - reflexivity.
  - intros k [<-|[<-|[]]]; [apply W2|apply W1].
  - intros i Hi. specialize (H i Hi). eapply Nat.lt_trans; [exact H|apply W1].
  - intros i k Hi [<-|[<-|[]]]; specialize (H i Hi); lia.
  - intros v Hv Hn. rewrite (eval_has s2 x a v Hx) by assumption. simpl.
    assert (Em : (if negb (a =? 0) then fdiv (if negb (a =? 0) then fone else fzero) a else Ok fone) = Ok mv).
    { unfold mv. destruct (Z.eqb_spec a 0); simpl; auto. apply fmul_inv_div; auto. }
    rewrite Em. simpl.
    destruct (v_set_fresh (S (nx s)) mv v) as (v1 & -> & Hv1); [apply Hn; simpl; auto|]. simpl.
    destruct (v_set_fresh (nx s) (if negb (a =? 0) then fone else fzero) v1) as (v2 & -> & Hv2).
    { rewrite Hv1. destruct (Nat.eqb_spec (nx s) (S (nx s))); [lia|]. apply Hn; simpl; auto. }
    exists v2. split; auto. intro j. rewrite Hv2, Hv1. unfold memb. simpl.
    destruct W1 as [_ E1], W2 as [_ E2].
    destruct (Nat.eqb_spec j (nx s)) as [->|].
    + rewrite E1. destruct (Nat.eqb_spec (nx s) (S (nx s))); [lia|]. simpl. unfold yv. destruct (a =? 0); reflexivity.
    + destruct (Nat.eqb_spec j (S (nx s))) as [->|]; simpl; [rewrite E2|]; reflexivity.
  - cbv beta. intros _ P5 s5 _ _ [-> ->]. apply comp_ret. split; auto. apply has_wire; auto.
Qed.

Lemma cmpl_not P s x a : has s x a -> is_bit a -> comp D P s (b_not x) (done P (fun r s' => has s' r (1 - a))).
Proof using Hp.
  clear H2.
  intros Hx Hb. apply comp_hon. intros G _ _. apply comp_ret. split; auto.
  eapply has_eq; [apply has_sub; [apply has_one, G|exact Hx]|]. apply Z.mod_small. pose proof Hord.
  destruct Hb as [->| ->]; lia.
Qed.

Lemma cmpl_and P s x y a b : has s x a -> has s y b -> is_bit a -> is_bit b ->
  comp D P s (b_and x y) (done P (fun r s' => has s' r (a * b))).
Proof using Hp.
  clear H2.
  intros Hx Hy Ha Hb. cweaken (apply cmpl_product; [exact Hx|exact Hy]). intros r P' s' _ _ [-> Hr]. split; auto.
  eapply has_eq; [exact Hr|]. apply Z.mod_small. pose proof Hord. destruct Ha as [->| ->], Hb as [->| ->]; lia.
Qed.

Lemma cmpl_or P s x y a b : has s x a -> has s y b -> is_bit a -> is_bit b ->
  comp D P s (b_or x y) (done P (fun r s' => has s' r (Z.max a b))).
Proof using Hp.
  clear H2.
  intros Hx Hy Ha Hb. unfold b_or. cbind (apply cmpl_product; [exact Hx|exact Hy]). intros r P' s' X G [-> Hr]. carry.
  apply comp_ret. split; auto.
  eapply has_eq; [apply has_sub; [apply has_add; [exact Hx|exact Hy]|exact Hr]|]. zmod. pose proof Hord.
  destruct Ha as [->| ->], Hb as [->| ->]; apply Z.mod_small; lia.
Qed.

Lemma cmpl_xor P s x y a b : has s x a -> has s y b -> is_bit a -> is_bit b ->
  comp D P s (b_xor x y) (done P (fun r s' => has s' r (if a =? b then 0 else 1))).
Proof using Hp H2.
  intros Hx Hy Ha Hb. unfold b_xor. cbind (apply cmpl_product; [exact Hx|exact Hy]). intros r P' s' X G [-> Hr]. carry.
  eapply comp_liftb; [apply (e_scale_u128_spec Hord); unfold infield; lia|]. apply comp_ret. split; auto.
  eapply has_eq; [apply has_sub; [apply has_add; [exact Hx|exact Hy]|apply has_scale, Hr]|]. zmod. pose proof Hord.
  destruct Ha as [->| ->], Hb as [->| ->]; apply Z.mod_small; simpl; lia.
Qed.

Lemma cmpl_zero P s x a : has s x a -> comp D P s (g_zero x) (done P (fun r s' => has s' r (if a =? 0 then 1 else 0))).
Proof using Hp H2.
  intro Hx. unfold g_zero. cbind (apply cmpl_nonzero; exact Hx). intros r P1 s1 X1 G1 [-> Hr].
  cweaken (apply cmpl_not; [exact Hr|destruct (a =? 0); [left|right]; reflexivity]).
  intros t P2 s2 _ _ [-> Ht]. split; auto. eapply has_eq; [exact Ht|]. destruct (a =? 0); reflexivity.
Qed.

Lemma cmpl_equal P s x y a b : has s x a -> has s y b ->
  comp D P s (g_equal x y) (done P (fun r s' => has s' r (if a =? b then 1 else 0))).
Proof using Hp H2.
  intros Hx Hy. unfold g_equal. cweaken (apply cmpl_zero, has_sub; [exact Hx|exact Hy]).
  intros t P2 s2 _ _ [-> Ht]. split; auto. eapply has_eq; [exact Ht|].
  destruct (Z.eqb_spec a b) as [->|N]; [rewrite Z.sub_diag, (mod_small_0 Hp); reflexivity|].
  destruct (Z.eqb_spec ((a - b) mod order) 0) as [E|]; auto. exfalso.
  apply (sub_nonzero a b); auto; eapply has_infield; eauto.
Qed.

Lemma cmpl_selection P s c x y cv a b : has s c cv -> has s x a -> has s y b -> is_bit cv ->
  comp D P s (selection c x y) (done P (fun r s' => has s' r (if cv =? 1 then a else b))).
Proof using Hp.
  intros Hc Hx Hy Hb. unfold selection. cbind (apply cmpl_product; [exact Hc|apply has_sub; [exact Hx|exact Hy]]).
  intros r P1 s1 X1 G1 [-> Hr]. carry. apply comp_ret. split; auto.
  eapply has_eq; [apply has_add; [exact Hy|exact Hr]|]. zmod.
  pose proof (has_infield _ _ _ Hx) as Ia. pose proof (has_infield _ _ _ Hy) as Ib.
  destruct Hb as [->| ->].
  - rewrite Z.mul_0_l, Z.add_0_r. apply Z.mod_small, Ib.
  - rewrite Z.mul_1_l, Z.eqb_refl. replace (b + (a - b)) with a by ring. apply Z.mod_small, Ia.
Qed.

Lemma cmpl_inverse_or_zero P s x a : has s x a ->
  comp D P s (inverse_or_zero x) (done P (fun r s' => has s' r (finvv a))).
Proof using Hp H2.
  intros Hx. pose proof (has_infield s x a Hx) as Ia. unfold inverse_or_zero. deps_of Hx.
  cbind (apply comp_wire; exact (finvv_infield Hp a Hord)). intros k P1 s1 X1 G1 (-> & -> & N1 & W1). carry.
  cbind (apply cmpl_nonzero; exact Hx). intros nz P2 s2 X2 G2 [-> Hn]. carry.
  cbind (eapply comp_assert_product; [exact Hx|apply has_wire; [exact G2|exact W1]|exact Hn|
    destruct (Z.eqb_spec a 0) as [->|Ha]; [symmetry; apply (mod_small_0 Hp)|symmetry; apply (finvv_correct Hp a Ia Ha)]]).
  intros _ P3 s3 _ _ [-> ->].
  cbind (eapply comp_gen1; [exact W1|assumption|
    intros v Hv; rewrite (eval_has s2 x a v Hx) by assumption; simpl; rewrite (finv_or_zero_spec Hp a H2 Ia); reflexivity]).
  intros _ P4 s4 _ _ [-> ->]. apply comp_ret. split; auto. apply has_wire; auto.
Qed.

Lemma cmpl_quotient P s x y a b : has s x a -> has s y b -> b <> 0 ->
  comp D P s (quotient x y) (done P (fun r s' => has s' r ((a * finvv b) mod order))).
Proof using Hp H2.
  intros Hx Hy Hb. unfold quotient. cbind (apply cmpl_inverse; [exact Hy|exact Hb]).
  intros i P1 s1 X1 G1 [-> Hi]. carry. cweaken (apply cmpl_product; [exact Hx|exact Hi]).
  intros r P2 s2 _ _ H. exact H.
Qed.

Lemma cmpl_quotient_unsafe P s x y a b : has s x a -> has s y b -> b <> 0 ->
  comp D P s (quotient_unsafe x y) (done P (fun r s' => has s' r ((a * finvv b) mod order))).
Proof using Hp H2.
  intros Hx Hy Hb. unfold quotient_unsafe. deps_of Hx. deps_of Hy.
  pose proof (has_infield s y b Hy) as Ib.
  cbind (apply comp_wire; exact (mod_infield (a * finvv b))). intros k P1 s1 X1 G1 (-> & -> & N1 & W1). carry.
  cbind (eapply comp_gen1; [exact W1|intros i Hi; apply in_app_or in Hi; destruct Hi; auto|
    intros v Hv; rewrite (eval_has s1 x a v Hx), (eval_has s1 y b v Hy) by (intros; apply Hv, in_or_app; auto); simpl;
    destruct (Z.eqb_spec b 0); [contradiction|]; simpl; unfold fdiv; rewrite (finv_spec Hp b H2 Ib Hb); reflexivity]).
  intros _ P4 s4 _ _ [-> ->]. apply comp_ret. split; auto. apply has_wire; auto.
Qed.

(** ** splitting *)
Definition zbl (a : Z) (n : nat) : list Z := map (fun i => b2z (zbit a i)) (seq 0 n).
Lemma zbl_length a n : length (zbl a n) = n.
Proof. unfold zbl. rewrite map_length, seq_length. reflexivity. Qed.
Lemma zbl_bits a n : Forall is_bit (zbl a n).
Proof. unfold zbl. rewrite Forall_map, Forall_forall. intros i _. destruct (zbit a i); [right|left]; reflexivity. Qed.
Lemma zbl_val a n : 0 <= a < 2 ^ Z.of_nat n -> bits_val (zbl a n) = a.
Proof. intros [H1 H3]. unfold zbl. rewrite bits_val_testbit by exact H1. apply Z.mod_small. auto. Qed.
Lemma zbl_nth a n i : (i < n)%nat -> nth i (zbl a n) 0 = b2z (zbit a i).
Proof.
  intro H. unfold zbl. rewrite (nth_indep _ 0 (b2z (zbit a 0))) by (rewrite map_length, seq_length; exact H).
  rewrite (map_nth (fun i => b2z (zbit a i))), seq_nth by exact H. reflexivity.
Qed.

(** joining bits gives their value *)
Lemma hasl_map_ev s es cs : hasl s es cs -> map (ev (wt s)) es = cs /\ Forall (over (fun k => (k < nx s)%nat)) es.
Proof. induction 1 as [|e c es cs [O E] _ [IH1 IH2]]; simpl; split; auto; congruence. Qed.

Lemma join_has s x l : hasl s x l -> (length x <= max_bits)%nat ->
  exists e, bin_join_allowing_overflow x = Ok e /\ has s e (bits_val l mod order).
Proof using Hp.
  intros H L. destruct (join_gen Hord x L) as (e & He & Hv & Ho). exists e. split; auto.
  apply hasl_map_ev in H. destruct H as [<- HO]. split; [apply Ho, HO|apply Hv].
Qed.

Lemma cmpl_swrc P s x a n : has s x a -> a < 2 ^ Z.of_nat n -> (n <= max_bits)%nat ->
  comp D P s (split_without_range_check x n) (done P (fun r s' => hasl s' r (zbl a n))).
Proof using Hp.
  intros Hx Ha Hn. pose proof (has_infield s x a Hx) as Ia. unfold split_without_range_check.
  deps_of Hx. rewrite <- (zbl_length a n) at 1.
  cbind (apply cmpl_binary_wire, zbl_bits). intros ws P1 s1 X1 G1 (Ews & HP1 & N1 & W1). rewrite zbl_length in *. carry.
  assert (Lw : length ws = n) by (rewrite Ews; apply seq_length).
  assert (Hl := hasl_wires s1 ws _ G1 W1).
  destruct (join_has s1 _ _ Hl) as (e & He & Hev).
  { unfold bin_of_wires. rewrite map_length. lia. }
  rewrite zbl_val in Hev by (unfold infield in Ia; lia).
  cbv zeta. eapply comp_liftb; [exact He|].
  cbind (eapply cmpl_assert_equal; [exact Hx|eapply has_eq; [exact Hev|apply Z.mod_small, Ia]]).
  intros _ P3 s3 _ _ [-> ->].
  assert (Hw : forall i, (i < n)%nat -> wt s1 (nth i ws 0%nat) = b2z (zbit a i)).
  { intros i Hi. rewrite <- (zbl_nth a n i Hi). rewrite <- Lw in Hi. exact (proj2 (hasw_nth s1 ws _ W1 i Hi)). }
  eapply comp_bind; [eapply comp_gens with (ks := ws) (P0 := P)|].
  - exact HP1.
  - intros k Hk. rewrite Ews in Hk. apply in_seq in Hk. lia.
  - intros i Hi. specialize (H i Hi). lia.
  - intros i k Hi Hk. specialize (H i Hi). rewrite Ews in Hk. apply in_seq in Hk. lia.
  - intros v Hv Hnone. rewrite (eval_has s1 x a v Hx) by assumption. simpl.
    assert (Hle : (el_bits a <=? n)%nat = true).
    { apply Nat.leb_le. unfold el_bits. apply zbits_min. unfold infield in Ia. lia. }
    rewrite Hle. simpl.
    assert (Em : map (fun i => nth i ws 0%nat) (seq 0 n) = ws).
    { rewrite <- Lw. clear. induction ws as [|a l IH]; [reflexivity|]. cbn [length seq map nth]. f_equal.
      rewrite <- seq_shift, map_map. exact IH. }
    destruct (ofold_sets (wt s1) (seq 0 n) (fun i => nth i ws 0%nat)
       (fun v' i => let! w := oindex ws i in v_set_boolean w (el_bit a i) v')) with (v := v) as (v' & Hf & Hg).
    + intros i v1 Hi. apply in_seq in Hi. rewrite Hw by lia. unfold oindex.
      rewrite (nth_error_nth' ws 0%nat) by lia. reflexivity.
    + rewrite Em, Ews. apply seq_NoDup.
    + rewrite Em. exact Hnone.
    + rewrite Em in Hg. exists v'. auto.
  - cbv beta. intros _ P4 s4 _ _ [-> ->]. apply comp_ret. split; auto.
Qed.

Lemma cmpl_split_bounded P s x a n : has s x a -> a < 2 ^ Z.of_nat n -> (n < max_bits)%nat ->
  comp D P s (split_bounded x n) (done P (fun r s' => hasl s' r (zbl a n))).
Proof using Hp.
  intros Hx Ha Hn. unfold split_bounded.
  eapply comp_liftb; [unfold oassert; destruct (Nat.ltb_spec n max_bits); [reflexivity|lia]|]. apply cmpl_swrc; auto. lia.
Qed.

Lemma cmpl_split_amb P s x a : has s x a ->
  comp D P s (split_allowing_ambiguity x) (done P (fun r s' => hasl s' r (zbl a max_bits))).
Proof using Hp.
  intro Hx. apply cmpl_swrc; auto. pose proof (has_infield _ _ _ Hx). pose proof (max_bits_upper Hord).
  unfold infield in *. lia.
Qed.

End Complete.
