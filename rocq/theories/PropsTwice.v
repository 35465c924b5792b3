(** C108: calling a gadget again with the same arguments adds nothing. *)
From Coq Require Import ZArith List Bool Arith Lia Sorted Znumtheory.
From Verif Require Import Base FieldM FieldP ExprM BuilderM GadgetsM CryptoM WaksmanM CurveM ProgramM Spec SpecCrypto SpecCurve ExprP MonoP DetP FlowP SpecRename RenameP
  RenameCallsP Demo PropLib PropsRename PropsExchange.
From Verif Require Import SoundP PropsExact LibraryM LibraryP PropsLibrary.
Import ListNotations.
Open Scope Z_scope.

(** ** C108 *)
(** The gadget was called on the builder [b] and called again, with the same arguments, on a later builder [c]: any calls may have been made in between. The second call succeeds with as
    many wires and constraints as the first, and whatever satisfies the circuit before it still does after it, with the values of the first call for the new wires and results. *)
Theorem C108_again : forall (F : Field) m, placeable m -> tidy m ->
  forall b es r1 b1 c, wf_builder b -> Forall (fun e => below (next b) e /\ sorted e) es -> m es b = Ok (r1, b1) -> extends b1 c -> wf_builder c ->
  exists r2 d, m es c = Ok (r2, d) /\ (next d = next c + (next b1 - next b))%nat /\
    (length (constraints d) = length (constraints c) + (length (constraints b1) - length (constraints b)))%nat /\
    forall w, wf_witness w -> sat w c ->
    exists w', wf_witness w' /\ (forall k, (k < next c)%nat -> w' k = w k) /\ sat w' d /\ map (ev w') r2 = map (ev w) r1.
Proof.
  intros F m P T b es r1 b1 c [N0 Wb] He E (Nc & [more C1] & _) [_ Wc]. set (N := next b) in *.
  assert (Be : Forall (below N) es) by (eapply Forall_impl; [|exact He]; cbv beta; tauto).
  destruct (T es b r1 b1 N0 Be E) as (L1 & R1 & c1 & Cb & D1). fold N in L1. set (s := (next c - N)%nat).
  assert (HW : one_to_one (moved N s)) by (apply moved_one_to_one, N0).
  assert (SE : Forall2 (same_expr (moved N s)) es es).
  { clear -He N0. induction He as [|e es [H1 H2] He IH]; constructor; [|exact IH]. apply (same_old (moved N s) N e); [intros; left; lia|intros k k' [K|(i & K)]; lia|exact H1|exact H2]. }
  pose proof (P (moved N s) HW es es SE b c) as X. assert (SF : same_fresh (moved N s) b c) by (intro i; right; exists i; fold N; unfold s; lia). specialize (X SF).
  rewrite E in X. destruct (m es c) as [[r2 d]| |]; cbn in X; [|contradiction..]. destruct X as (V & n & k1 & k2 & g1 & g2 & B1 & B2 & K & _).
  assert (c1 = k1) by (rewrite B1 in Cb; cbn in Cb; apply app_inv_head in Cb; auto). subst k1.
  assert (Nn : next b1 = (N + n)%nat) by (rewrite B1; reflexivity).
  exists r2, d. split; [reflexivity|]. split; [rewrite B2, Nn; cbn; lia|]. split.
  { rewrite B2, Cb. cbn [constraints]. rewrite !app_length, (Forall2_len _ _ _ K). lia. }
  intros w Hw S. exists (fun k => if (k <? next c)%nat then w k else w (k - s)%nat). set (w' := fun k => if (k <? next c)%nat then w k else w (k - s)%nat).
  assert (R : forall k k', moved N s k k' -> w k = w' k').
  { intros k k' [[K1 ->]|(i & -> & ->)]; unfold w'; destruct (Nat.ltb_spec k (next c)) || destruct (Nat.ltb_spec (N + s + i) (next c)); try reflexivity; try lia.
    f_equal. lia. }
  assert (Old : forall k, (k < next c)%nat -> w' k = w k) by (intros k Hk; unfold w'; destruct (Nat.ltb_spec k (next c)); [reflexivity|lia]).
  split; [|split; [exact Old|split]].
  - destruct Hw as [H1 H2]. split; [rewrite Old by (unfold ONE; lia); exact H1|]. intro k. unfold w'. destruct (k <? next c)%nat; apply H2.
  - unfold sat. rewrite B2. cbn [constraints]. apply Forall_app. split.
    + unfold sat in S. rewrite Forall_forall in S, Wc |- *. intros x Hx. specialize (S x Hx). destruct (Wc x Hx) as (A1 & A2 & A3). unfold sat1 in *.
      assert (Q : forall e, over (fun k => (k < next c)%nat) e -> ev w' e = ev w e) by (intros e O; apply ev_ext; intros k Hk; apply Old, (O k Hk)).
      rewrite (Q _ A1), (Q _ A2), (Q _ A3). exact S.
    + apply (C103_satisfied F _ HW w w' R _ _ K). unfold sat in S. rewrite C1, Cb, !Forall_app in S. tauto.
  - clear -V R HW. induction V as [|x x' l l' Hx V IH]; [reflexivity|]. cbn [map]. rewrite IH, (ev_same _ HW F w w' x x' R Hx). reflexivity.
Qed.
Print Assumptions C108_again.

(** For circuits of the sound gadgets of the library the two calls have the same results in every satisfying assignment, so the second can be dropped. *)
Theorem C108_agree : forall (F : Field), prime order -> 2 < order -> (4 <= max_bits)%nat -> forall p es b r1 b1 c r2 d w,
  from_library p -> well_typed p (length es) -> construct p es b = Ok (r1, b1) -> extends b1 c -> construct p es c = Ok (r2, d) ->
  wf_witness w -> sat w d -> map (ev w) r1 = map (ev w) r2.
Proof.
  intros F Hp H2 H4 p es b r1 b1 c r2 d w L T E1 X E2 Hw S.
  assert (M : mono (construct p es)) by apply mono_construct, (circuit_correct Hp H2 H4 p L).
  assert (S1 : sat w b1) by (eapply sat_extends; [exact X|]; eapply sat_extends; [exact (M _ _ _ E2)|exact S]).
  pose proof (C85_sound F Hp H2 H4 p es L T b r1 b1 w E1 Hw S1) as A1. pose proof (C85_sound F Hp H2 H4 p es L T c r2 d w E2 Hw S) as A2. cbv beta in A1, A2. congruence.
Qed.
Print Assumptions C108_agree.

(** Not for comparisons with an unasserted result: of two calls of [lt] on the same smaller and larger value one may say 1 and the other 0. *)
Theorem C108_disagree : forall (F : Field), prime order -> (4 <= max_bits)%nat -> forall x y,
  sat_call (r1 <- lt x y ;; r2 <- lt x y ;; bret (r1, r2)) (fun n w => below n x /\ below n y /\ ev w x < ev w y) (fun w r => ev w (fst r) = 1 /\ ev w (snd r) = 0).
Proof.
  intros F Hp H4 x y b w Wb Hw S (Bx & By & Lt). destruct (C64_compare F Hp H4 x y) as ([_ Q] & _).
  assert (U : forall n v, below n x -> below n y -> uses [x; y] n v) by (intros n v A1 A2; unfold uses; repeat constructor; assumption).
  destruct (Q 1 b w Wb Hw S) as (r1 & b1 & w1 & E1 & W1 & H1 & A1 & S1 & R1); [split; [apply U; assumption|right; auto]|].
  destruct (fl_cmp (next b) x y true true Bx By b r1 b1 (proj1 Wb) (le_n _) E1) as (L1 & _ & _ & _ & _ & _ & _ & _ & (_ & Br) & _).
  destruct (Q 0 b1 w1 W1 H1 S1) as (r2 & b2 & w2 & E2 & W2 & H2 & A2 & S2 & R2); [split; [apply U; eapply below_le; eauto|left; reflexivity]|].
  exists (r1, r2), b2, w2. unfold bbind, bret. rewrite E1, E2. split; [reflexivity|]. split; [exact W2|]. split; [exact H2|]. split; [intros k Hk; rewrite A2 by lia; apply A1, Hk|].
  split; [exact S2|]. cbn [fst snd]. split; [|exact R2]. rewrite <- R1. apply ev_ext. intros k Hk. apply A2, (Br k Hk).
Qed.
Print Assumptions C108_disagree.

(** Over the integers modulo 7: the inverse of wire 1, then a zero test of wire 2, then the inverse of wire 1 again. *)
Local Existing Instance F7.
Example C108_example :
  let m := compile [OInv 0] in let between := compile [ONonzero 0] in let b := mkB 3 [] [] in
  let first_last := r1 <- m [e_wire 1] ;; _ <- between [e_wire 2] ;; r2 <- m [e_wire 1] ;; bret (r1, r2) in
  placeable m /\ tidy m /\ wf_builder b /\ Forall (fun e => below (next b) e /\ sorted e) [e_wire 1] /\
  match first_last b with Ok ((r1, r2), c) => Some (r1, r2, constraints c) | _ => None end =
    Some ([e_wire 1; e_wire 3], [e_wire 1; e_wire 6],
      [mkC (e_wire 1) (e_wire 3) e_one; mkC (e_wire 2) (e_wire 5) (e_wire 4); mkC (e_sub e_one (e_wire 4)) (e_wire 2) e_zero; mkC (e_wire 1) (e_wire 6) e_one]).
Proof.
  intros m between b first_last. assert (Hord : 2 <= order) by (vm_compute; discriminate).
  split; [apply (C103_operations F7 Hord)|]. split; [apply (C105_operations F7 Hord)|]. split; [split; [vm_compute; lia|constructor]|].
  split; [constructor; [|constructor]; split; [apply below_wire; cbn; lia|unfold sorted; cbn; repeat constructor]|]. vm_compute. reflexivity.
Qed.
