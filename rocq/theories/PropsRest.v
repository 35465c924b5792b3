(** Remaining conversions and constants: C06, C49, C52. *)
From Coq Require Import ZArith List Bool Arith Lia Znumtheory.
From Verif Require Import Base FieldM FieldP ExprM ExprP BuilderM CryptoM CurveM ReadmeM Spec SpecCurve Demo PropsCore PropsCrypto PropsCurve.
Import ListNotations.
Open Scope Z_scope.

(** The constant -1. *)
Theorem C06_neg_one : forall (F : Field), 2 <= order -> forall v, m_get ONE v = Some 1 -> e_evaluate v e_neg_one = Ok (order - 1).
Proof.
  intros F H v H1. destruct (C06_atoms F H v H1) as (_ & _ & _ & A & _).
  destruct (C06_homomorphism F H v e_one e_one 1 1 A A) as (_ & _ & N & _). unfold e_neg_one. rewrite N. f_equal.
  rewrite Z_mod_nz_opp_full; rewrite Z.mod_small by lia; lia.
Qed.
Print Assumptions C06_neg_one.

(** [BooleanExpression::evaluate] answers for the values 0 and 1 and panics on all others. *)
Theorem C06_boolean_evaluate : forall (F : Field) v e,
  (forall b, be_evaluate v e = Ok b <-> e_evaluate v e = Ok (if b then 1 else 0)) /\
  (forall x, e_evaluate v e = Ok x -> x <> 0 -> x <> 1 -> be_evaluate v e = Panic).
Proof.
  intros F v e. unfold be_evaluate. split.
  - intro b. destruct (e_evaluate v e) as [x| |]; cbn [obind]; [|split; discriminate..].
    destruct (Z.eqb_spec x 0) as [->|N0]; [destruct b; split; congruence|]. destruct (Z.eqb_spec x 1) as [->|N1]; [destruct b; split; congruence|].
    split; [discriminate|]. destruct b; congruence.
  - intros x E N0 N1. rewrite E. cbn [obind]. rewrite (proj2 (Z.eqb_neq _ _) N0), (proj2 (Z.eqb_neq _ _) N1). reflexivity.
Qed.
Print Assumptions C06_boolean_evaluate.

(** [WireValues::get_boolean]. *)
Theorem C09_get_boolean : forall (F : Field), 2 <= order -> forall v k,
  (m_get k v = None -> v_get_boolean v k = Panic) /\
  (forall x, m_get k v = Some x -> 0 <= x < order ->
     (forall b, v_get_boolean v k = Ok b <-> x = if b then 1 else 0) /\ (x <> 0 -> x <> 1 -> v_get_boolean v k = Panic)).
Proof.
  intros F H v k. unfold v_get_boolean. split.
  - intro N. unfold be_evaluate, e_evaluate, e_wire, m_collect, fone. cbn [fold_left m_insert m_alter e_new filter negb Z.eqb ofold fst snd]. unfold v_get. rewrite N. reflexivity.
  - intros x G Hx. assert (E : e_evaluate v (e_wire k) = Ok x).
    { unfold e_evaluate, e_wire, m_collect, fone. cbn [fold_left m_insert m_alter e_new filter negb Z.eqb ofold fst snd]. unfold v_get. rewrite G. cbn [obind ounwrap]. f_equal.
      unfold fadd, fmul, fzero. rewrite Z.mul_1_r, Z.add_0_l, Zmod_mod. apply Z.mod_small, Hx. }
    destruct (C06_boolean_evaluate F v (e_wire k)) as [A B]. split; [|intros; apply (B x E); assumption]. intro b. rewrite A, E. split; [injection 1; auto|congruence].
Qed.
Print Assumptions C09_get_boolean.

(** A pair of field elements becomes constant expressions exactly when it is a point of the curve. *)
Theorem C52_of_coordinates : forall (F : Field), prime order -> forall C x y, 0 <= x < order -> 0 <= y < order ->
  (on_curve (ed_a C) (ed_d C) (x, y) -> exists e, ed_of_coordinates C x y = Ok e /\
     forall v, m_get ONE v = Some 1 -> ed_evaluate v e = Ok (x, y)) /\
  (~ on_curve (ed_a C) (ed_d C) (x, y) -> ed_of_coordinates C x y = Panic).
Proof.
  intros F Hp C x y Hx Hy. destruct (C52_point_new F Hp C x y Hx Hy) as [A B]. unfold ed_of_coordinates. split; intro H.
  - rewrite (A H). eexists. split; [reflexivity|]. intros v H1. assert (H2 : 2 <= order) by (destruct Hp; lia).
    destruct (C06_atoms F H2 v H1) as (K & _). unfold ed_evaluate, ed_of_point. cbn [fst snd]. rewrite (K x Hx), (K y Hy). reflexivity.
  - rewrite (B H). reflexivity.
Qed.
Print Assumptions C52_of_coordinates.

(** [inverse_evaluate] of the two multi-element permutations panics on every input. *)
Theorem C49_inverse_evaluate_refuted : forall (F : Field) p r xs,
  mp_inverse_evaluate (poseidon_mp p) xs = Panic /\ mp_inverse_evaluate (rescue_mp r) xs = Panic.
Proof.
  intros F p r xs. unfold mp_inverse_evaluate, run_const. cbn [mp_inverse poseidon_mp rescue_mp].
  destruct (C49_inverse_panics_refuted F p r (map e_const xs) b_new) as [A B]. rewrite A, B. split; reflexivity.
Qed.
Print Assumptions C49_inverse_evaluate_refuted.

Example C52_of_coordinates_example : let F : Field := F13 in let C := mkEd 1 2 in
  (exists e, ed_of_coordinates C 4 9 = Ok e /\ ed_evaluate [(ONE, 1)] e = Ok (4, 9)) /\ ed_of_coordinates C 4 5 = Panic /\
  e_evaluate [(ONE, 1)] e_neg_one = Ok 12 /\ v_get_boolean [(3%nat, 1); (4%nat, 7); (ONE, 1)] 3 = Ok true /\
  v_get_boolean [(3%nat, 1); (4%nat, 7); (ONE, 1)] 4 = Panic.
Proof. split; [eexists; split; vm_compute; reflexivity|]. repeat split; vm_compute; reflexivity. Qed.

(** [Sponge::new] over the two permutations: accepted exactly when the parts add up to their width; a sponge over Poseidon
    that was accepted runs, since the width checked is the one [permute] asserts. *)
Theorem C47_new_shipped : forall (F : Field) p q r c,
  sponge_new (poseidon_mp p) r c = (if (r + c =? pos_width p)%nat then Ok (mkSponge (poseidon_mp p) r c) else Panic) /\
  sponge_new (rescue_mp q) r c = (if (r + c =? res_width q)%nat then Ok (mkSponge (rescue_mp q) r c) else Panic).
Proof. intros F p q r c. split; apply C47_new. Qed.
Print Assumptions C47_new_shipped.
Theorem C47_new_runs : forall (F : Field), prime order -> 2 < order -> forall p r c s vals inputs n,
  poseidon_ok p -> (0 < r)%nat -> sponge_new (poseidon_mp p) r c = Ok s -> good_inputs vals -> on_inputs_all vals inputs ->
  runs vals (sponge_evaluate s inputs n) (fun res v => omap (e_evaluate v) res =
    Ok (SpecCrypto.sponge_fun (SpecCrypto.poseidon_fun (MatrixP.sbox_fun (pos_sbox p)) (pos_full p) (pos_partial p) (pos_mds p)) r c
         (map (ev (input_witness vals)) inputs) n)).
Proof.
  intros F Hp H2 p r c s vals inputs n Hok Hr E Hv Hi. rewrite (proj1 (C47_new_shipped F p (mkRescue 0 0 0 []) r c)) in E.
  destruct (Nat.eqb_spec (r + c) (pos_width p)) as [W|]; [|discriminate]. injection E as <-.
  exact (C47_poseidon_runs F Hp H2 p r c vals inputs n Hok Hr W Hv Hi).
Qed.
Print Assumptions C47_new_runs.
Example C47_new_example : let F : Field := F97 in let p := mkPoseidon 3 2 3 Exponentiation5 [[2; 1; 1]; [1; 2; 1]; [1; 1; 3]] in
  sponge_new (poseidon_mp p) 2 1 = Ok (mkSponge (poseidon_mp p) 2 1) /\ sponge_new (poseidon_mp p) 2 2 = Panic.
Proof. intros F p. split; rewrite (proj1 (C47_new_shipped F p (mkRescue 0 0 0 []) _ _)); reflexivity. Qed.
