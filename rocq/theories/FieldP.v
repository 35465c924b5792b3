(** Proofs about the field model: closure, ring laws, integral domain, Fermat, inverses. *)
From Coq Require Import ZArith List Bool Lia Znumtheory Permutation Setoid Morphisms Ring Field.
From Verif Require Import Base FieldM.
Import ListNotations.
Open Scope Z_scope.

(** Results for any order >= 2. *)
Definition infield {F : Field} (x : Z) : Prop := 0 <= x < order.

Section Ring.
Context {F : Field} (Hord : 2 <= order).

Definition feqm (x y : Z) : Prop := x mod order = y mod order.

Local Infix "==" := feqm (at level 70).

Global Instance feqm_equiv : Equivalence feqm.
Proof.
  unfold feqm. split.
  - intro x. reflexivity.
  - intros x y H. symmetry. exact H.
  - intros x y z H1 H2. congruence.
Qed.

Lemma feqm_eq x y : infield x -> infield y -> x == y -> x = y.
Proof.
  unfold infield, feqm. intros Hx Hy H.
  rewrite !Z.mod_small in H by lia. exact H.
Qed.

Lemma feqm_mod x : x mod order == x.
Proof using Hord. unfold feqm. apply Z.mod_mod. lia. Qed.

Lemma infield_mod x : infield (x mod order).
Proof using Hord. apply Z.mod_pos_bound. lia. Qed.

Lemma infield_0 : infield 0.
Proof using Hord. unfold infield. lia. Qed.
Lemma infield_1 : infield 1.
Proof using Hord. unfold infield. lia. Qed.
Lemma infield_add x y : infield (fadd x y).
Proof using Hord. apply infield_mod. Qed.
Lemma infield_mul x y : infield (fmul x y).
Proof using Hord. apply infield_mod. Qed.
Lemma infield_opp x : infield x -> infield (fopp x).
Proof using Hord.
  unfold infield, fopp, fzero. destruct (Z.eqb_spec x 0); lia.
Qed.
Lemma infield_sub x y : infield (fsub x y).
Proof using Hord. apply infield_mod. Qed.
Lemma infield_bool b : infield (fbool b).
Proof using Hord. destruct b; unfold infield, fbool, fone, fzero; lia. Qed.

Lemma fadd_eqm x y : fadd x y == x + y.
Proof using Hord. apply feqm_mod. Qed.
Lemma fmul_eqm x y : fmul x y == x * y.
Proof using Hord. apply feqm_mod. Qed.
Lemma fopp_eqm x : fopp x == - x.
Proof using Hord.
  unfold fopp, fzero, feqm. destruct (Z.eqb_spec x 0); subst; auto.
  replace (order - x) with (- x + 1 * order) by ring. apply Z_mod_plus_full.
Qed.

Global Instance Zadd_feqm : Proper (feqm ==> feqm ==> feqm) Z.add.
Proof.
  intros a b H c d H'. unfold feqm in *.
  rewrite Z.add_mod, H, H', <- Z.add_mod by lia. reflexivity.
Qed.
Global Instance Zmul_feqm : Proper (feqm ==> feqm ==> feqm) Z.mul.
Proof.
  intros a b H c d H'. unfold feqm in *.
  rewrite Z.mul_mod, H, H', <- Z.mul_mod by lia. reflexivity.
Qed.
Global Instance Zopp_feqm : Proper (feqm ==> feqm) Z.opp.
Proof.
  intros a b H. replace (- a) with ((-1) * a) by ring. replace (- b) with ((-1) * b) by ring.
  rewrite H. reflexivity.
Qed.
Global Instance Zsub_feqm : Proper (feqm ==> feqm ==> feqm) Z.sub.
Proof.
  intros a b H c d H'. unfold Z.sub. rewrite H, H'. reflexivity.
Qed.

Lemma fsub_eqm x y : fsub x y == x - y.
Proof using Hord.
  unfold fsub. rewrite fadd_eqm, fopp_eqm. reflexivity.
Qed.

Global Instance fadd_feqm : Proper (feqm ==> feqm ==> feqm) fadd.
Proof. intros a b H c d H'. rewrite !fadd_eqm, H, H'. reflexivity. Qed.
Global Instance fmul_feqm : Proper (feqm ==> feqm ==> feqm) fmul.
Proof. intros a b H c d H'. rewrite !fmul_eqm, H, H'. reflexivity. Qed.
Global Instance fopp_feqm : Proper (feqm ==> feqm) fopp.
Proof. intros a b H. rewrite !fopp_eqm, H. reflexivity. Qed.
Global Instance fsub_feqm : Proper (feqm ==> feqm ==> feqm) fsub.
Proof. intros a b H c d H'. rewrite !fsub_eqm, H, H'. reflexivity. Qed.

Lemma feqm_0 x : x == 0 <-> (order | x).
Proof using Hord.
  unfold feqm. rewrite (Z.mod_0_l order) by lia. split; intro H.
  - apply Z.mod_divide; [lia|exact H].
  - apply Z.mod_divide in H; [exact H|lia].
Qed.

Lemma el_from_ok x : infield x -> el_from x = Ok x.
Proof.
  unfold el_from, infield. intros [_ H]. apply Z.ltb_lt in H. rewrite H. reflexivity.
Qed.

Lemma el_from_inv x y : el_from x = Ok y -> y = x /\ x < order.
Proof.
  unfold el_from. destruct (Z.ltb_spec x order); intro E; inversion E; subst; split; auto.
Qed.

End Ring.

(** Decide an equality of field terms by ring reasoning modulo the order: both sides must be in
    the field. *)
Ltac to_eqm := rewrite ?fadd_eqm, ?fmul_eqm, ?fsub_eqm, ?fopp_eqm by assumption.

Global Hint Resolve infield_0 infield_1 infield_add infield_mul infield_opp infield_sub
  infield_mod infield_bool : infield.

(** Push all field operations to integer operations under [feqm] (needs [2 <= order] in
    context), everywhere in the goal. *)
Ltac fpush Hord :=
  repeat first
    [ setoid_rewrite (fadd_eqm Hord)
    | setoid_rewrite (fmul_eqm Hord)
    | setoid_rewrite (fsub_eqm Hord)
    | setoid_rewrite (fopp_eqm Hord) ].

Section PrimeField.
Context {F : Field} (Hp : prime order).

Lemma prime_ge2 : 2 <= order.
Proof using Hp. destruct Hp. lia. Qed.
Let Hord := prime_ge2.
Local Infix "==" := feqm (at level 70).

Lemma fmul_integral x y : infield x -> infield y -> fmul x y = 0 -> x = 0 \/ y = 0.
Proof using Hp.
  intros Hx Hy H. assert (D : (order | x * y)).
  { apply Z.mod_divide; [unfold infield in *; lia|]. exact H. }
  apply prime_mult in D; auto. unfold infield in *.
  destruct D as [[k D]|[k D]].
  - left. assert (k = 0) by nia. subst k. lia.
  - right. assert (k = 0) by nia. subst k. lia.
Qed.

Lemma feqm_integral x y : x * y == 0 -> x == 0 \/ y == 0.
Proof using Hp.
  rewrite !feqm_0 by apply Hord. intro D. apply prime_mult in D; auto.
Qed.

Lemma feqm_cancel a x y : ~ (a == 0) -> a * x == a * y -> x == y.
Proof using Hp.
  intros Ha H. assert (D : a * (x - y) == 0).
  { replace (a * (x - y)) with (a * x - a * y) by ring.
    pose proof (Zsub_feqm Hord). rewrite H. replace (a * y - a * y) with 0 by ring. reflexivity. }
  apply feqm_integral in D. destruct D as [D|D]; [contradiction|].
  pose proof (Zadd_feqm Hord) as PA.
  replace x with ((x - y) + y) by ring. rewrite D. replace (0 + y) with y by ring. reflexivity.
Qed.

(** Fermat's little theorem, by permuting the non-zero residues. *)
Definition residues : list Z := map Z.of_nat (seq 1 (Z.to_nat (order - 1))).

Lemma residues_spec x : In x residues <-> 1 <= x < order.
Proof using Hp.
  unfold residues. rewrite in_map_iff. split.
  - intros [n [E I]]. apply in_seq in I. lia.
  - intro H. exists (Z.to_nat x). split; [lia|]. apply in_seq. lia.
Qed.

Lemma residues_NoDup : NoDup residues.
Proof.
  unfold residues. apply FinFun.Injective_map_NoDup.
  - intros a b H. lia.
  - apply seq_NoDup.
Qed.

Definition zprod (l : list Z) : Z := fold_right Z.mul 1 l.

Lemma zprod_perm l l' : Permutation l l' -> zprod l = zprod l'.
Proof.
  induction 1; simpl; try congruence; ring.
Qed.

Lemma zprod_map_scale a l : zprod (map (fun x => (a * x) mod order) l) ==
                            a ^ Z.of_nat (length l) * zprod l.
Proof using Hp.
  pose proof (Zmul_feqm Hord) as PM.
  induction l as [|x l IH].
  - reflexivity.
  - change (length (x :: l)) with (S (length l)).
    rewrite Nat2Z.inj_succ, Z.pow_succ_r by lia.
    cbn [map zprod fold_right]. fold (zprod (map (fun x => (a * x) mod order) l)). fold (zprod l).
    rewrite IH, feqm_mod by apply Hord.
    replace (a * x * (a ^ Z.of_nat (length l) * zprod l))
      with (a * a ^ Z.of_nat (length l) * (x * zprod l)) by ring. reflexivity.
Qed.

Lemma zprod_nonzero l : (forall x, In x l -> 1 <= x < order) -> ~ (zprod l == 0).
Proof using Hp.
  induction l as [|x l IH]; intros H.
  - simpl. unfold feqm. rewrite Z.mod_small, Z.mod_0_l by lia. lia.
  - cbn [zprod fold_right]. fold (zprod l). intro D. apply feqm_integral in D. destruct D as [D|D].
    + assert (1 <= x < order) by (apply H; left; reflexivity).
      unfold feqm in D. rewrite Z.mod_small, Z.mod_0_l in D by lia. lia.
    + apply IH; auto. intros. apply H. right. assumption.
Qed.

Theorem fermat a : ~ (a == 0) -> a ^ (order - 1) == 1.
Proof using Hp.
  intro Ha.
  assert (P : Permutation residues (map (fun x => (a * x) mod order) residues)).
  { apply NoDup_Permutation_bis.
    - apply residues_NoDup.
    - rewrite map_length. apply le_n.
    - intros y Hy.
      (* surjectivity by counting *)
      assert (Hn : NoDup (map (fun x => (a * x) mod order) residues)).
      { assert (G : forall l, NoDup l -> (forall x, In x l -> 1 <= x < order) ->
                    NoDup (map (fun x => (a * x) mod order) l)).
        { induction 1 as [|x l Hx Hn IH]; intros Hr; simpl; constructor.
          - rewrite in_map_iff. intros [z [E I]]. apply Hx.
            assert (x = z); [|subst; assumption].
            assert (E' : a * z == a * x) by exact E.
            apply feqm_cancel in E'; auto.
            assert (1 <= x < order) by (apply Hr; left; reflexivity).
            assert (1 <= z < order) by (apply Hr; right; assumption).
            unfold feqm in E'. rewrite !Z.mod_small in E' by lia. auto.
          - apply IH. intros. apply Hr. right. assumption. }
        apply G; [apply residues_NoDup|]. intros x. apply residues_spec. }
      assert (Hi : incl (map (fun x => (a * x) mod order) residues) residues).
      { intros z Hz. apply in_map_iff in Hz. destruct Hz as [x [E I]].
        apply residues_spec in I. apply residues_spec. subst z.
        assert (0 <= (a * x) mod order < order) by (apply Z.mod_pos_bound; lia).
        assert ((a * x) mod order <> 0); [|lia].
        intro D. assert (D' : a * x == 0).
        { unfold feqm. rewrite D, Z.mod_0_l by lia. reflexivity. }
        apply feqm_integral in D'. destruct D' as [D'|D']; [contradiction|].
        unfold feqm in D'. rewrite Z.mod_small, Z.mod_0_l in D' by lia. lia. }
      apply (@NoDup_length_incl Z _ residues Hn); auto. rewrite map_length. apply le_n. }
  apply zprod_perm in P.
  pose proof (zprod_map_scale a residues) as S. rewrite <- P in S.
  assert (L : Z.of_nat (length residues) = order - 1).
  { unfold residues. rewrite map_length, seq_length. lia. }
  rewrite L in S.
  assert (Hz : ~ (zprod residues == 0)).
  { apply zprod_nonzero. intros x. apply residues_spec. }
  apply (feqm_cancel (zprod residues)); auto.
  replace (zprod residues * a ^ (order - 1)) with (a ^ (order - 1) * zprod residues) by ring.
  rewrite <- S. rewrite Z.mul_1_r. reflexivity.
Qed.

Lemma modpow_pos_spec x e : modpow_pos x e order = (x ^ Zpos e) mod order.
Proof using Hp.
  induction e as [e IH|e IH|].
  - cbn [modpow_pos]. rewrite IH.
    rewrite Pos2Z.inj_xI. replace (2 * Zpos e + 1) with (1 + (Zpos e + Zpos e)) by ring.
    rewrite !Z.pow_add_r by lia. rewrite Z.pow_1_r.
    rewrite <- Z.mul_mod by lia. rewrite Z.mul_mod_idemp_r by lia. reflexivity.
  - cbn [modpow_pos]. rewrite IH.
    rewrite Pos2Z.inj_xO. replace (2 * Zpos e) with (Zpos e + Zpos e) by ring.
    rewrite Z.pow_add_r by lia. rewrite <- Z.mul_mod by lia. reflexivity.
  - cbn [modpow_pos]. rewrite Z.pow_1_r. reflexivity.
Qed.

Lemma fexp_spec x e : 0 <= e -> fexp x e = (x ^ e) mod order.
Proof using Hp.
  intro He. unfold fexp, modpow. destruct e as [|e|e].
  - rewrite Z.pow_0_r. reflexivity.
  - apply modpow_pos_spec.
  - lia.
Qed.

Lemma infield_exp x e : 0 <= e -> infield (fexp x e).
Proof using Hp. intro. rewrite fexp_spec by assumption. apply infield_mod, Hord. Qed.

Lemma infield_nonzero x : infield x -> x <> 0 -> ~ (x == 0).
Proof using Hp.
  unfold infield, feqm. intros Hx Hn. rewrite Z.mod_small, Z.mod_0_l by lia. exact Hn.
Qed.

Lemma fermat_full a : a ^ order == a.
Proof using Hp.
  pose proof (Zmul_feqm Hord) as PM.
  assert (EP : a ^ order = a * a ^ (order - 1)).
  { rewrite <- Z.pow_succ_r by (pose proof Hord; lia). f_equal. lia. }
  rewrite EP.
  destruct (Z.eq_dec (a mod order) 0) as [E|E].
  - assert (E' : a == 0) by (unfold feqm; rewrite E, Z.mod_0_l; pose proof Hord; lia).
    transitivity (0 * a ^ (order - 1)).
    + apply PM; [exact E'|reflexivity].
    + rewrite Z.mul_0_l. symmetry. exact E'.
  - rewrite fermat.
    + rewrite Z.mul_1_r. reflexivity.
    + unfold feqm. rewrite Z.mod_0_l by (pose proof Hord; lia). exact E.
Qed.

(** Inverse. [finvv] is the value used in specifications. *)
Definition finvv (x : Z) : Z := if x =? 0 then 0 else fexp x (order - 2).

Lemma finv_spec x : 2 < order -> infield x -> x <> 0 ->
  finv x = Ok (finvv x).
Proof using Hp.
  intros H2 Hx Hn. unfold finv, finvv. destruct (Z.eqb_spec x 0); [contradiction|].
  rewrite el_from_ok by (unfold infield; lia). simpl.
  unfold fopp. simpl. reflexivity.
Qed.

Lemma finv_or_zero_spec x : 2 < order -> infield x ->
  finv_or_zero x = Ok (finvv x).
Proof using Hp.
  intros H2 Hx. unfold finv_or_zero. destruct (Z.eqb_spec x 0) as [E|E].
  - subst. reflexivity.
  - apply finv_spec; auto.
Qed.

Lemma finvv_infield x : 2 <= order -> infield (finvv x).
Proof using Hp.
  intros. unfold finvv. destruct (x =? 0); [apply infield_0; lia|].
  apply infield_exp. lia.
Qed.

Lemma finvv_correct x : infield x -> x <> 0 -> fmul x (finvv x) = 1.
Proof using Hp.
  intros Hx Hn. pose proof Hord as H2. unfold finvv. destruct (Z.eqb_spec x 0); [contradiction|].
  apply (feqm_eq); [apply infield_mul; lia|apply infield_1; lia|].
  pose proof (Zmul_feqm Hord) as PM.
  rewrite fmul_eqm by lia. rewrite fexp_spec by lia. rewrite feqm_mod by lia.
  replace (x * x ^ (order - 2)) with (x ^ (order - 1)).
  - apply fermat. apply infield_nonzero; auto.
  - replace (order - 1) with (1 + (order - 2)) by ring.
    rewrite Z.pow_add_r, Z.pow_1_r by lia. reflexivity.
Qed.

Lemma finvv_nonzero x : infield x -> x <> 0 -> finvv x <> 0.
Proof using Hp.
  intros Hx Hn E. pose proof (finvv_correct x Hx Hn) as C. rewrite E in C.
  unfold fmul in C. rewrite Z.mul_0_r, Z.mod_0_l in C by (pose proof Hord; lia). lia.
Qed.

Lemma finv_unique x y : infield x -> infield y -> fmul x y = 1 -> x <> 0 /\ y = finvv x.
Proof using Hp.
  intros Hx Hy H. pose proof Hord as H2.
  assert (Hn : x <> 0).
  { intro E. subst. unfold fmul in H. rewrite Z.mul_0_l, Z.mod_0_l in H by lia. lia. }
  split; auto.
  apply feqm_eq; auto; [apply finvv_infield; lia|].
  apply (feqm_cancel x).
  - apply infield_nonzero; auto.
  - rewrite <- !fmul_eqm by lia. rewrite H, finvv_correct by auto. reflexivity.
Qed.

(** Setoid field structure, for the [field] tactic under [feqm]. *)
Lemma fp_ring : @ring_theory Z 0 1 fadd fmul fsub fopp feqm.
Proof using Hp.
  pose proof Hord as H2.
  pose proof (Zadd_feqm H2). pose proof (Zmul_feqm H2). pose proof (Zsub_feqm H2).
  pose proof (Zopp_feqm H2).
  constructor; intros; rewrite ?fadd_eqm, ?fmul_eqm, ?fsub_eqm, ?fopp_eqm by lia;
    rewrite ?fadd_eqm, ?fmul_eqm by lia;
    apply f_equal2; ring.
Qed.

End PrimeField.
