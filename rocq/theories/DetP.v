(** Every wire is set by exactly one generator: ownership of wires through the builder calls. *)
From Coq Require Import ZArith List Bool Arith Lia Permutation.
From Verif Require Import Base FieldM FieldP ExprM BuilderM GadgetsM CryptoM WaksmanM CurveM Spec ExprP BitsP MonoP LocalP SoundP HonestP ExecP CoreP
  BimapP RouteP SettleP WaksmanP CryptoP MatrixP SpongeP CmpCompleteP SortP RefuseP.
Import ListNotations.
Open Scope nat_scope.

Definition agree_on (ks : list nat) (v1 v2 : values) : Prop := forall k, In k ks -> m_get k v1 = m_get k v2.

(** Two runs that start from [v1], [v2] end alike: same values on [o], nothing else touched. *)
Definition alike (o : list nat) (v1 v2 : values) (r1 r2 : outcome values) : Prop :=
  match r1, r2 with
  | Ok u1, Ok u2 => (forall k, In k o -> m_get k u1 = m_get k u2 /\ m_get k u1 <> None) /\
                    (forall k, ~ In k o -> m_get k u1 = m_get k v1 /\ m_get k u2 = m_get k v2)
  | Panic, Panic => True
  | _, _ => False
  end.
(** The generator reads only [deps] and sets exactly the wires [o]. *)
Definition sets (deps o : list nat) (run : values -> outcome values) : Prop := NoDup o ->
  forall v1 v2, agree_on deps v1 v2 -> unset_in o v1 -> unset_in o v2 -> alike o v1 v2 (run v1) (run v2).

Section Own.
Context {F : Field}.
(** It always stops, and it panics when one of the wires [o] already has a value, unless it is the router of a permutation network. *)
Definition writes (deps o : list nat) (run : values -> outcome values) : Prop :=
  sets deps o run /\ (forall v, run v <> NoFuel) /\ (stops_on o run \/ router deps o run).

Definition outs (L : list (wgen * list nat)) : list nat := concat (map snd L).
Definition writes_all (L : list (wgen * list nat)) : Prop := Forall (fun p => writes (g_inputs (fst p)) (snd p) (g_run (fst p))) L.

(** The call starts owing values for the wires [U] and ends owing values for [U']; all new wires and all of [U] are in [U'] or are set by
    one of the new generators, each by one. *)
Definition own {A} (U : list nat) (m : B A) (Q : A -> list nat -> Prop) : Prop := forall b a b', m b = Ok (a, b') ->
  next b <= next b' /\ exists L U', generators b' = generators b ++ map fst L /\ writes_all L /\ Q a U' /\
    Permutation (U' ++ outs L) (U ++ seq (next b) (next b' - next b)).
Definition det {A} (m : B A) : Prop := own [] m (fun _ U' => U' = []).

Lemma outs_app L1 L2 : outs (L1 ++ L2) = outs L1 ++ outs L2.
Proof. unfold outs. rewrite map_app, concat_app. reflexivity. Qed.

Lemma own_ret {A} U (a : A) : own U (bret a) (fun x U' => x = a /\ U' = U).
Proof.
  intros b x b' E. inversion E; subst. split; [lia|]. exists [], U. unfold outs. cbn [map concat]. rewrite Nat.sub_diag. cbn [seq]. rewrite !app_nil_r. repeat split; auto. constructor.
Qed.
Lemma own_lift {A} U (o : outcome A) : own U (blift o) (fun x U' => o = Ok x /\ U' = U).
Proof.
  intros b x b' E. unfold blift in E. destruct o; inversion E; subst. split; [lia|]. exists [], U. unfold outs. cbn [map concat]. rewrite Nat.sub_diag. cbn [seq]. rewrite !app_nil_r. repeat split; auto. constructor.
Qed.
Lemma own_weaken {A} U (m : B A) (Q Q' : A -> list nat -> Prop) : own U m Q -> (forall a U', Q a U' -> Q' a U') -> own U m Q'.
Proof. intros H W b a b' E. destruct (H b a b' E) as (N & L & U' & G & D & HQ & P). split; [exact N|]. exists L, U'. auto. Qed.
Lemma own_perm {A} U V (m : B A) Q : Permutation U V -> own U m Q -> own V m Q.
Proof.
  intros PUV H b a b' E. destruct (H b a b' E) as (N & L & U' & G & D & HQ & P). split; [exact N|]. exists L, U'. repeat split; auto.
  rewrite P. apply Permutation_app_tail, PUV.
Qed.
Lemma own_bind {A C} U (m : B A) (k : A -> B C) Q Q' : own U m Q -> (forall a U', Q a U' -> own U' (k a) Q') -> own U (bbind m k) Q'.
Proof.
  intros H1 H2 b c b' E. unfold bbind in E. destruct (m b) as [[a b1]| |] eqn:E1; try discriminate.
  destruct (H1 _ _ _ E1) as (N1 & L1 & U1 & G1 & D1 & HQ1 & P1). destruct (H2 _ _ HQ1 _ _ _ E) as (N2 & L2 & U2 & G2 & D2 & HQ2 & P2).
  split; [lia|]. exists (L1 ++ L2), U2. repeat split; auto.
  - rewrite G2, G1, map_app, app_assoc. reflexivity.
  - apply Forall_app. auto.
  - rewrite outs_app. rewrite (Permutation_app_comm (outs L1)), app_assoc, P2, <- app_assoc.
    rewrite (Permutation_app_comm (seq (next b1) _)), app_assoc, P1, <- app_assoc. apply Permutation_app_head.
    replace (next b' - next b) with ((next b1 - next b) + (next b' - next b1)) by lia. rewrite seq_app.
    replace (next b + (next b1 - next b)) with (next b1) by lia. reflexivity.
Qed.
Lemma own_frame {A} U (m : B A) Q R : own U m Q -> own (U ++ R) m (fun a U' => exists U1, Q a U1 /\ U' = U1 ++ R).
Proof.
  intros H b a b' E. destruct (H b a b' E) as (N & L & U' & G & D & HQ & P). split; [exact N|]. exists L, (U' ++ R). repeat split; auto; [eauto|].
  rewrite <- app_assoc, (Permutation_app_comm R), app_assoc, P, <- !app_assoc. apply Permutation_app_head, Permutation_app_comm.
Qed.
Lemma own_det {A} U (m : B A) : det m -> own U m (fun _ U' => U' = U).
Proof. intro H. apply (own_frame [] m _ U) in H. cbn [app] in H. eapply own_weaken; [exact H|]. cbv beta. intros a U' (U1 & -> & ->). reflexivity. Qed.
Lemma own_wire U : own U b_wire (fun w U' => U' = w :: U).
Proof.
  intros b w b' E. inversion E; subst. cbn [next generators]. split; [lia|]. exists [], (next b :: U). cbn [map outs concat app]. unfold outs. cbn [map concat].
  rewrite !app_nil_r. repeat split; auto; [constructor|]. replace (S (next b) - next b) with 1 by lia. cbn [seq]. apply Permutation_cons_append.
Qed.
Lemma own_generator U o R deps run : Permutation U (o ++ R) -> writes deps o run -> own U (b_generator deps run) (fun _ U' => U' = R).
Proof.
  intros PU W b a b' E. inversion E; subst. cbn [next generators]. split; [lia|]. exists [(mkG deps run, o)], R. cbn [map fst snd]. repeat split; auto.
  - constructor; [exact W|constructor].
  - unfold outs. cbn [map snd concat]. rewrite app_nil_r, Nat.sub_diag. cbn [seq]. rewrite app_nil_r, PU. apply Permutation_app_comm.
Qed.
Lemma det_own {A} (m : B A) Q : own [] m Q -> (forall a U', Q a U' -> U' = []) -> det m.
Proof. intros H W. eapply own_weaken; eauto. Qed.

Lemma det_ret {A} (a : A) : det (bret a).
Proof. eapply det_own; [apply own_ret|]. cbv beta. tauto. Qed.
Lemma det_lift {A} (o : outcome A) : det (blift o).
Proof. eapply det_own; [apply own_lift|]. cbv beta. tauto. Qed.
Lemma det_bind {A C} (m : B A) (k : A -> B C) : det m -> (forall a, det (k a)) -> det (bbind m k).
Proof. intros H1 H2. unfold det. eapply own_bind; [exact H1|]. cbv beta. intros a U' ->. apply H2. Qed.
Lemma det_bmap {A C} (f : A -> B C) l : (forall a, det (f a)) -> det (bmap f l).
Proof. intro H. induction l as [|a l IH]; cbn [bmap]; [apply det_ret|]. apply det_bind; [apply H|intro]. apply det_bind; [exact IH|intro]. apply det_ret. Qed.
Lemma det_bfold {A S} (f : S -> A -> B S) l : (forall s a, det (f s a)) -> forall s, det (bfold f l s).
Proof. intro H. induction l as [|a l IH]; intro s; cbn [bfold]; [apply det_ret|]. apply det_bind; [apply H|intro]. apply IH. Qed.
Lemma det_assert_product x y z : det (assert_product x y z).
Proof.
  intros b a b' E. inversion E; subst. cbn [next generators]. split; [lia|]. exists [], []. rewrite Nat.sub_diag. cbn. rewrite app_nil_r. repeat split; auto; constructor.
Qed.
Lemma own_bmap {A C} (f : A -> B C) (g : C -> list nat) l : (forall U a, own U (f a) (fun c U' => Permutation U' (g c ++ U))) ->
  forall U, own U (bmap f l) (fun cs U' => length cs = length l /\ Permutation U' (flat_map g cs ++ U)).
Proof.
  intro H. induction l as [|a l IH]; intro U; cbn [bmap].
  - eapply own_weaken; [apply own_ret|]. cbv beta. intros x U' [-> ->]. split; reflexivity.
  - eapply own_bind; [apply H|]. cbv beta. intros c U1 P1. eapply own_bind; [apply IH|]. cbv beta. intros cs U2 [L2 P2].
    eapply own_weaken; [apply own_ret|]. cbv beta. intros x U' [-> ->]. cbn [length flat_map]. split; [lia|]. rewrite P2, P1, !app_assoc.
    apply Permutation_app_tail, Permutation_app_comm.
Qed.
End Own.

Create HintDb det.
Global Hint Resolve det_ret det_lift det_assert_product : det.
Ltac det_step :=
  first
    [ solve [auto with det]
    | apply det_bind; [|intro]
    | apply det_bmap; intro
    | apply det_bfold; intros
    | match goal with
      | |- det (if ?b then _ else _) => destruct b
      | |- det (match ?o with _ => _ end) => destruct o
      end ].
Ltac det := repeat det_step.
(** use of a call that leaves nothing owed / of a new wire *)
Ltac owb := eapply own_bind; [apply own_det; solve [det]|]; cbv beta; intros ? ? ->.
Ltac oww := eapply own_bind; [apply own_wire|]; cbv beta; intros ? ? ->.
Ltac owl := eapply own_bind; [apply own_lift|]; cbv beta; intros ? ? [? ->].
Ltac owr := eapply own_weaken; [apply own_ret|]; cbv beta; intros ? ? [-> ->].

(** ** generators *)
Section Writes.
Context {F : Field}.

Lemma evaluate_agree v1 v2 x deps : agree_on deps v1 v2 -> incl (e_deps x) deps -> e_evaluate v1 x = e_evaluate v2 x.
Proof.
  intros A I. unfold e_evaluate. generalize fzero. unfold e_deps in I. induction x as [|[k c] x IH]; intro z; cbn [ofold fst snd]; [reflexivity|].
  unfold v_get, ounwrap. rewrite (A k) by (apply I; left; reflexivity). destruct (m_get k v2) as [y|]; cbn [obind]; [|reflexivity].
  apply IH. intros j Hj. apply I. right. exact Hj.
Qed.
Lemma omap_agree v1 v2 xs deps : agree_on deps v1 v2 -> incl (flat_map e_deps xs) deps -> omap (e_evaluate v1) xs = omap (e_evaluate v2) xs.
Proof.
  intros A I. induction xs as [|x xs IH]; cbn [omap]; [reflexivity|]. cbn [flat_map] in I.
  rewrite (evaluate_agree v1 v2 x deps A) by (intros k Hk; apply I, in_or_app; auto). rewrite IH by (intros k Hk; apply I, in_or_app; auto). reflexivity.
Qed.

Lemma alike_nil v1 v2 : alike [] v1 v2 (Ok v1) (Ok v2).
Proof. split; [intros k []|auto]. Qed.
Lemma alike_set w x v1 v2 : m_get w v1 = None -> m_get w v2 = None -> alike [w] v1 v2 (v_set w x v1) (v_set w x v2).
Proof.
  intros N1 N2. destruct (v_set_fresh w x v1 N1) as (u1 & -> & H1), (v_set_fresh w x v2 N2) as (u2 & -> & H2). split.
  - intros k [<-|[]]. rewrite H1, H2, Nat.eqb_refl. split; [reflexivity|discriminate].
  - intros k N. rewrite H1, H2. destruct (Nat.eqb_spec k w) as [->|]; [exfalso; apply N; left; reflexivity|auto].
Qed.
Lemma alike_seq o1 o2 v1 v2 r1 r2 k1 k2 : NoDup (o1 ++ o2) -> unset_in o2 v1 -> unset_in o2 v2 -> alike o1 v1 v2 r1 r2 ->
  (forall u1 u2, alike o1 v1 v2 (Ok u1) (Ok u2) -> unset_in o2 u1 -> unset_in o2 u2 -> alike o2 u1 u2 (k1 u1) (k2 u2)) ->
  alike (o1 ++ o2) v1 v2 (obind r1 k1) (obind r2 k2).
Proof.
  intros ND F1 F2 A K. destruct r1 as [u1| |], r2 as [u2| |]; cbn [obind]; try (exfalso; exact A); try exact A.
  assert (D : forall k, In k o2 -> ~ In k o1).
  { intros k I2 I1. revert ND I1 I2. clear. induction o1 as [|a o1 IH]; cbn; intros ND I1 I2; [exact I1|]. inversion ND; subst. destruct I1 as [->|I1]; [|auto].
    apply H1, in_or_app. auto. }
  assert (U1 : unset_in o2 u1) by (intros k Hk; destruct A as [_ A]; rewrite (proj1 (A k (D k Hk))); apply F1, Hk).
  assert (U2 : unset_in o2 u2) by (intros k Hk; destruct A as [_ A]; rewrite (proj2 (A k (D k Hk))); apply F2, Hk).
  specialize (K u1 u2 A U1 U2). destruct A as [A1 A2]. destruct (k1 u1) as [t1| |], (k2 u2) as [t2| |]; try (exfalso; exact K); try exact K. destruct K as [K1 K2]. split.
  - intros k Hk. apply in_app_or in Hk. destruct (in_dec Nat.eq_dec k o2) as [I2|I2]; [apply K1, I2|]. destruct Hk as [Hk|Hk]; [|contradiction].
    rewrite (proj1 (K2 k I2)), (proj2 (K2 k I2)). apply A1, Hk.
  - intros k Hk. assert (~ In k o1 /\ ~ In k o2) as [I1 I2] by (split; intro; apply Hk, in_or_app; auto).
    rewrite (proj1 (K2 k I2)), (proj2 (K2 k I2)). apply A2, I1.
Qed.
(** Both sides set the same list of wires and values. *)
Lemma alike_sets {A} (k : A -> nat) (x : A -> Z) l : NoDup (map k l) -> forall v1 v2, unset_in (map k l) v1 -> unset_in (map k l) v2 ->
  alike (map k l) v1 v2 (ofold (fun v a => v_set (k a) (x a) v) l v1) (ofold (fun v a => v_set (k a) (x a) v) l v2).
Proof.
  induction l as [|a l IH]; intros ND v1 v2 F1 F2; cbn [ofold map]; [apply alike_nil|].
  apply (alike_seq [k a] (map k l)); [exact ND| | | |].
  - intros j Hj. apply F1. right. exact Hj.
  - intros j Hj. apply F2. right. exact Hj.
  - apply alike_set; [apply F1|apply F2]; left; reflexivity.
  - intros u1 u2 _ U1 U2. apply IH; auto. inversion ND; assumption.
Qed.
End Writes.

Lemma sets_perm deps o o' run : Permutation o o' -> sets deps o run -> sets deps o' run.
Proof.
  intros P W ND v1 v2 A F1 F2. specialize (W (Permutation_NoDup (Permutation_sym P) ND) v1 v2 A).
  assert (U : forall v, unset_in o' v -> unset_in o v) by (intros v H k Hk; apply H; revert Hk; apply Permutation_in, P).
  specialize (W (U _ F1) (U _ F2)). destruct (run v1) as [u1| |], (run v2) as [u2| |]; try exact W. destruct W as [W1 W2]. split.
  - intros k Hk. apply W1. revert Hk. apply Permutation_in, Permutation_sym, P.
  - intros k Hk. apply W2. intro I. apply Hk. revert I. apply Permutation_in, P.
Qed.


Section Calls.
Context {F : Field}.

Lemma alike_bind {A} o v1 v2 (r : outcome A) k1 k2 : r <> NoFuel -> (forall a, r = Ok a -> alike o v1 v2 (k1 a) (k2 a)) ->
  alike o v1 v2 (obind r k1) (obind r k2).
Proof. intros N K. destruct r as [a| |]; cbn [obind]; [apply K; reflexivity|exact I|congruence]. Qed.
Lemma alike_eval o v1 v2 deps x k1 k2 : agree_on deps v1 v2 -> incl (e_deps x) deps -> (forall a, alike o v1 v2 (k1 a) (k2 a)) ->
  alike o v1 v2 (obind (e_evaluate v1 x) k1) (obind (e_evaluate v2 x) k2).
Proof.
  intros A I K. rewrite (evaluate_agree v1 v2 x deps A I). apply alike_bind; [apply e_evaluate_total|]. intros a _. apply K.
Qed.
Lemma alike_evals o v1 v2 deps xs k1 k2 : agree_on deps v1 v2 -> incl (flat_map e_deps xs) deps -> (forall l, length l = length xs -> alike o v1 v2 (k1 l) (k2 l)) ->
  alike o v1 v2 (obind (omap (e_evaluate v1) xs) k1) (obind (omap (e_evaluate v2) xs) k2).
Proof.
  intros A I K. rewrite (omap_agree v1 v2 xs deps A I). apply alike_bind; [apply omap_total; intro; apply e_evaluate_total|].
  intros l E. apply K. symmetry. clear -E. revert l E. induction xs as [|x xs IH]; intros l E; cbn [omap] in E; [inversion E; reflexivity|].
  destruct (e_evaluate v2 x); cbn [obind] in E; try discriminate. destruct (omap (e_evaluate v2) xs) as [t| |]; cbn [obind] in E; try discriminate.
  inversion E. cbn. f_equal. auto.
Qed.

Ltac aev := eapply alike_eval; [eassumption|solve [auto using incl_appl, incl_appr, incl_refl]|intro].
Ltac one F1 F2 := apply alike_set; [apply F1|apply F2]; left; reflexivity.
Ltac gen o R := eapply own_bind; [eapply (own_generator _ o R)|cbv beta; intros ? ? ->].

(** the generators one by one *)
Lemma sets_product x y w : sets (e_deps x ++ e_deps y) [w] (fun v =>
  let! a := e_evaluate v x in let! b := e_evaluate v y in v_set w (fmul a b) v).
Proof. intros ND v1 v2 A F1 F2. aev. aev. one F1 F2. Qed.
Lemma writes_product x y w : writes (e_deps x ++ e_deps y) [w] (fun v =>
  let! a := e_evaluate v x in let! b := e_evaluate v y in v_set w (fmul a b) v).
Proof.
  split; [apply sets_product|]. split; [nofuel|]. left. intros v v' E. inv_ok E. eapply stops_one, E.
Qed.
Lemma sets_inverse x w : sets (e_deps x) [w] (fun v => let! a := e_evaluate v x in let! i := finv a in v_set w i v).
Proof. intros ND v1 v2 A F1 F2. aev. apply alike_bind; [apply finv_total|]. intros i _. one F1 F2. Qed.
Lemma writes_inverse x w : writes (e_deps x) [w] (fun v => let! a := e_evaluate v x in let! i := finv a in v_set w i v).
Proof.
  split; [apply sets_inverse|]. split; [nofuel|]. left. intros v v' E. inv_ok E. eapply stops_one, E.
Qed.
Lemma sets_nonzero x m y : sets (e_deps x) [m; y] (fun v =>
    let! xv := e_evaluate v x in
    let yv := if negb (xv =? 0)%Z then fone else fzero in
    let! mv := (if negb (xv =? 0)%Z then fdiv yv xv else Ok fone) in
    let! v' := v_set m mv v in
    v_set y yv v').
Proof.
  intros ND v1 v2 A F1 F2. aev. apply alike_bind.
  - destruct (negb _); [|discriminate]. unfold fdiv. pose proof (finv_total a) as H. destruct (finv a); cbn [obind]; congruence.
  - intros mv _. apply (alike_seq [m] [y]); [exact ND|intros k Hk; apply F1; right; exact Hk|intros k Hk; apply F2; right; exact Hk|one F1 F2|].
    intros u1 u2 _ U1 U2. one U1 U2.
Qed.
Lemma writes_nonzero x m y : writes (e_deps x) [m; y] (fun v =>
    let! xv := e_evaluate v x in
    let yv := if negb (xv =? 0)%Z then fone else fzero in
    let! mv := (if negb (xv =? 0)%Z then fdiv yv xv else Ok fone) in
    let! v' := v_set m mv v in
    v_set y yv v').
Proof.
  split; [apply sets_nonzero|]. split; [nofuel|]. left. intros v v' E. cbv zeta in E. inv_ok E. eapply stops_two; eassumption.
Qed.
Lemma sets_inverse_or_zero x r : sets (e_deps x) [r] (fun v => let! xv := e_evaluate v x in let! i := finv_or_zero xv in v_set r i v).
Proof.
  intros ND v1 v2 A F1 F2. aev. apply alike_bind; [unfold finv_or_zero; destruct (_ =? _)%Z; [discriminate|apply finv_total]|]. intros i _. one F1 F2.
Qed.
Lemma writes_inverse_or_zero x r : writes (e_deps x) [r] (fun v => let! xv := e_evaluate v x in let! i := finv_or_zero xv in v_set r i v).
Proof.
  split; [apply sets_inverse_or_zero|]. split; [nofuel|]. left. intros v v' E. inv_ok E. eapply stops_one, E.
Qed.
Lemma sets_quotient_unsafe x y q : sets (e_deps x ++ e_deps y) [q] (fun v =>
    let! xv := e_evaluate v x in
    let! yv := e_evaluate v y in
    let! _ := oassert (negb (yv =? 0)%Z) in
    let! qv := fdiv xv yv in
    v_set q qv v).
Proof.
  intros ND v1 v2 A F1 F2. aev. aev. apply alike_bind; [unfold oassert; destruct (negb _); discriminate|]. intros _ _.
  apply alike_bind; [unfold fdiv; pose proof (finv_total a0) as H; destruct (finv a0); cbn [obind]; congruence|]. intros i _. one F1 F2.
Qed.
Lemma writes_quotient_unsafe x y q : writes (e_deps x ++ e_deps y) [q] (fun v =>
    let! xv := e_evaluate v x in
    let! yv := e_evaluate v y in
    let! _ := oassert (negb (yv =? 0)%Z) in
    let! qv := fdiv xv yv in
    v_set q qv v).
Proof.
  split; [apply sets_quotient_unsafe|]. split; [nofuel|]. left. intros v v' E. inv_ok E. eapply stops_one, E.
Qed.

Lemma det_assert_boolean x : det (assert_boolean x).
Proof. unfold assert_boolean. det. Qed.
Lemma det_assert_equal x y : det (assert_equal x y).
Proof. unfold assert_equal. det. Qed.
Hint Resolve det_assert_boolean det_assert_equal : det.
Lemma det_assert_zero x : det (assert_zero x).
Proof. unfold assert_zero. det. Qed.
Lemma det_assert_true x : det (assert_true x).
Proof. unfold assert_true. det. Qed.
Lemma det_assert_false x : det (assert_false x).
Proof. unfold assert_false. det. Qed.
Hint Resolve det_assert_zero det_assert_true det_assert_false : det.

Lemma own_boolean_wire U : own U boolean_wire (fun w U' => U' = w :: U).
Proof. unfold boolean_wire. oww. owb. owr. reflexivity. Qed.
Lemma own_bmap_wires {A} (f : A -> B nat) l : (forall U a, own U (f a) (fun w U' => U' = w :: U)) ->
  forall U, own U (bmap f l) (fun ws U' => length ws = length l /\ Permutation U' (ws ++ U)).
Proof.
  intros H U. eapply own_weaken; [apply (own_bmap f (fun w => [w]))|]. 
  - intros V a. eapply own_weaken; [apply H|]. cbv beta. intros w U' ->. reflexivity.
  - cbv beta. intros ws U' [L P]. split; [exact L|]. replace (flat_map (fun w => [w]) ws) with ws in P; [exact P|].
    clear. induction ws as [|w ws IH]; cbn; congruence.
Qed.
Lemma own_wires n U : own U (b_wires n) (fun ws U' => length ws = n /\ Permutation U' (ws ++ U)).
Proof. unfold b_wires. eapply own_weaken; [apply own_bmap_wires; intros; apply own_wire|]. cbv beta. intros ws U'. rewrite seq_length. auto. Qed.
Lemma own_binary_wire n U : own U (binary_wire n) (fun ws U' => length ws = n /\ Permutation U' (ws ++ U)).
Proof. unfold binary_wire. eapply own_weaken; [apply own_bmap_wires; intros; apply own_boolean_wire|]. cbv beta. intros ws U'. rewrite seq_length. auto. Qed.

Lemma det_product x y : det (product x y).
Proof.
  unfold product. destruct (e_as_constant x); [apply det_ret|]. destruct (e_as_constant y); [apply det_ret|].
  eapply own_bind; [apply own_wire|]. cbv beta. intros w U ->. owb. gen [w] (@nil nat); [reflexivity|apply writes_product|owr; reflexivity].
Qed.
Hint Resolve det_product : det.
Lemma det_exponentiation x p : det (exponentiation x p).
Proof. unfold exponentiation. det. Qed.
Lemma det_inverse x : det (inverse x).
Proof.
  unfold inverse. eapply own_bind; [apply own_wire|]. cbv beta. intros w U ->. owb. gen [w] (@nil nat); [reflexivity|apply writes_inverse|owr; reflexivity].
Qed.
Hint Resolve det_exponentiation det_inverse : det.
Lemma det_assert_nonzero x : det (assert_nonzero x).
Proof. unfold assert_nonzero. det. Qed.
Lemma det_assert_nonequal x y : det (assert_nonequal x y).
Proof. unfold assert_nonequal. apply det_assert_nonzero. Qed.
Lemma det_nonzero x : det (nonzero x).
Proof.
  unfold nonzero. eapply own_bind; [apply own_wire|]. cbv beta. intros y U ->. oww. owb. owb. rename a into m.
  gen [m; y] (@nil nat); [reflexivity|apply writes_nonzero|owr; reflexivity].
Qed.
Hint Resolve det_assert_nonzero det_assert_nonequal det_nonzero : det.
Lemma det_not x : det (b_not x).
Proof. unfold b_not. det. Qed.
Lemma det_and x y : det (b_and x y).
Proof. unfold b_and. det. Qed.
Lemma det_or x y : det (b_or x y).
Proof. unfold b_or. det. Qed.
Lemma det_xor x y : det (b_xor x y).
Proof. unfold b_xor. det. Qed.
Hint Resolve det_not det_and det_or det_xor : det.
Lemma det_zero x : det (g_zero x).
Proof. unfold g_zero. det. Qed.
Lemma det_equal x y : det (g_equal x y).
Proof. unfold g_equal. apply det_zero. Qed.
Lemma det_selection c x y : det (selection c x y).
Proof. unfold selection. det. Qed.
Hint Resolve det_zero det_equal det_selection : det.
Lemma det_inverse_or_zero x : det (inverse_or_zero x).
Proof.
  unfold inverse_or_zero. eapply own_bind; [apply own_wire|]. cbv beta. intros r U ->. owb. owb. gen [r] (@nil nat); [reflexivity|apply writes_inverse_or_zero|owr; reflexivity].
Qed.
Lemma det_quotient x y : det (quotient x y).
Proof. unfold quotient. det. Qed.
Lemma det_quotient_unsafe x y : det (quotient_unsafe x y).
Proof.
  unfold quotient_unsafe. eapply own_bind; [apply own_wire|]. cbv beta. intros q U ->. gen [q] (@nil nat); [reflexivity|apply writes_quotient_unsafe|owr; reflexivity].
Qed.
Hint Resolve det_inverse_or_zero det_quotient det_quotient_unsafe : det.

Lemma ofold_ext {A S} (f g : S -> A -> outcome S) l : (forall a s, In a l -> f s a = g s a) -> forall s, ofold f l s = ofold g l s.
Proof.
  induction l as [|a l IH]; intros H s; cbn [ofold]; [reflexivity|]. rewrite (H a s) by (left; reflexivity). destruct (g s a); cbn [obind]; auto.
  apply IH. intros b t Hb. apply H. right. exact Hb.
Qed.
Lemma map_nth_seq0 (ws : list nat) : map (fun i => nth i ws 0) (seq 0 (length ws)) = ws.
Proof.
  apply (nth_ext _ _ 0 0); [rewrite map_length, seq_length; reflexivity|]. intros n Hn. rewrite map_length, seq_length in Hn.
  rewrite (nth_indep _ 0 (nth 0 ws 0)) by (rewrite map_length, seq_length; lia). rewrite (map_nth (fun i => nth i ws 0)), seq_nth by lia. reflexivity.
Qed.
Lemma oindex_nth {A} (l : list A) i d : i < length l -> oindex l i = Ok (nth i l d).
Proof. intro H. unfold oindex, ounwrap. rewrite (nth_error_nth' l d H). reflexivity. Qed.

Lemma sets_split x ws : sets (e_deps x) ws (fun v =>
    let! xv := e_evaluate v x in
    let! _ := oassert (el_bits xv <=? length ws)%nat in
    ofold (fun v' i => let! w := oindex ws i in v_set_boolean w (el_bit xv i) v') (seq 0 (length ws)) v).
Proof.
  intros ND v1 v2 A F1 F2. eapply alike_eval; [eassumption|apply incl_refl|intro xv].
  apply alike_bind; [unfold oassert; destruct (_ <=? _); discriminate|]. intros _ _.
  pose proof (alike_sets (fun i => nth i ws 0) (fun i => fbool (el_bit xv i)) (seq 0 (length ws))) as S. rewrite map_nth_seq0 in S. specialize (S ND v1 v2 F1 F2).
  rewrite !(ofold_ext (fun v' i => let! w := oindex ws i in v_set_boolean w (el_bit xv i) v') (fun v i => v_set (nth i ws 0) (fbool (el_bit xv i)) v)); [exact S| |];
    intros i s Hi; apply in_seq in Hi; rewrite (oindex_nth ws i 0) by lia; reflexivity.
Qed.
Lemma writes_split x ws : writes (e_deps x) ws (fun v =>
    let! xv := e_evaluate v x in
    let! _ := oassert (el_bits xv <=? length ws)%nat in
    ofold (fun v' i => let! w := oindex ws i in v_set_boolean w (el_bit xv i) v') (seq 0 (length ws)) v).
Proof.
  split; [apply sets_split|]. split; [nofuel|]. left. intros v v' E. inv_ok E. eapply (fold_sets (fun v => v) (fun i => nth i ws 0)) in E; [rewrite map_nth_seq0 in E; exact E|].
  intros s i s' Hi Es. apply in_seq in Hi. rewrite (oindex_nth ws i 0) in Es by lia. exact (set_step _ _ _ _ Es).
Qed.
Lemma det_split_without_range_check x n : det (split_without_range_check x n).
Proof.
  unfold split_without_range_check. eapply own_bind; [apply own_binary_wire|]. cbv beta. intros ws U [L P]. rewrite app_nil_r in P. cbv zeta.
  owb. owb. gen ws (@nil nat); [rewrite app_nil_r; exact P| |owr; reflexivity]. subst n. apply writes_split.
Qed.
Hint Resolve det_split_without_range_check : det.
Lemma det_split_allowing_ambiguity x : det (split_allowing_ambiguity x).
Proof. unfold split_allowing_ambiguity. det. Qed.
Lemma det_split_bounded x n : det (split_bounded x n).
Proof. unfold split_bounded. det. Qed.
Hint Resolve det_split_allowing_ambiguity det_split_bounded : det.
Lemma det_cmp_subtractive d l s n : det (cmp_subtractive d l s n).
Proof. unfold cmp_subtractive. det. Qed.
Hint Resolve det_cmp_subtractive : det.

Lemma join_over P x e : bin_join_allowing_overflow x = Ok e -> Forall (over P) x -> over P e.
Proof.
  unfold bin_join_allowing_overflow. intros E H.
  assert (G : forall l z, Forall (fun ib => over P (snd ib)) l -> over P z ->
    ofold (fun s ib => let! c := fshl fone (fst ib) in Ok (e_add s (e_scale (snd ib) c))) l z = Ok e -> over P e).
  { clear E. induction l as [|[i b] l IH]; intros z Hl Hz E; cbn [ofold] in E; [inversion E; subst; exact Hz|]. inversion Hl; subst. cbn [fst snd] in *.
    destruct (fshl fone i); cbn [obind] in E; try discriminate. apply (IH _ H3) in E; [exact E|]. apply over_add; [exact Hz|apply over_scale; assumption]. }
  apply (G _ _) in E; [exact E| |apply over_zero]. apply Forall_forall. intros [i b] Hi. apply in_combine_r in Hi. rewrite Forall_forall in H. apply H, Hi.
Qed.
Lemma chunks_over P c x es : (let! cs := bin_chunks x c in omap bin_join cs) = Ok es -> Forall (over P) x -> Forall (over P) es.
Proof.
  unfold bin_chunks, chunks. destruct (c =? 0); cbn [obind]; [discriminate|]. generalize (length x) as fuel. intro fuel. revert x es.
  induction fuel as [|f IH]; intros x es E H; cbn [chunks_fuel] in E; [inversion E; constructor|].
  destruct x as [|a x']; [inversion E; constructor|]. set (x := a :: x') in *. cbn [omap] in E.
  destruct (bin_join (firstn c x)) as [e| |] eqn:J; cbn [obind] in E; try discriminate.
  destruct (omap bin_join (chunks_fuel f c (skipn c x))) as [t| |] eqn:T; cbn [obind] in E; try discriminate. inversion E; subst.
  rewrite <- (firstn_skipn c x) in H. apply Forall_app in H. destruct H as [H1 H2]. constructor; [|eapply IH; eauto].
  unfold bin_join in J. destruct (oassert _); cbn [obind] in J; try discriminate. exact (join_over P _ _ J H1).
Qed.
Lemma chunks_deps c x es i e : (let! cs := bin_chunks x c in omap bin_join cs) = Ok es -> oindex es i = Ok e -> incl (e_deps e) (bin_deps x).
Proof.
  intros E I. apply (chunks_over (fun k => In k (bin_deps x)) c x es) in E; [|apply (bin_deps_over (fun _ => True))]. rewrite Forall_forall in E. unfold oindex, ounwrap in I.
  destruct (nth_error es i) as [e'|] eqn:N; [|discriminate]. inversion I; subst. apply nth_error_In in N. exact (E _ N).
Qed.

Lemma agree_after deps o v1 v2 u1 u2 : agree_on deps v1 v2 -> alike o v1 v2 (Ok u1) (Ok u2) -> agree_on deps u1 u2.
Proof.
  intros A [H1 H2] k Hk. destruct (in_dec Nat.eq_dec k o) as [I|I]; [apply H1, I|]. rewrite (proj1 (H2 k I)), (proj2 (H2 k I)). apply A, Hk.
Qed.
Lemma obind_assoc {A C D} (r : outcome A) (f : A -> outcome C) (g : C -> outcome D) : obind (obind r f) g = obind r (fun a => obind (f a) g).
Proof. destruct r; reflexivity. Qed.

Lemma snd_combine {A C} (l : list A) : forall m : list C, length l = length m -> map snd (combine l m) = m.
Proof. induction l as [|a l IH]; intros [|c m] L; cbn in *; try lia; [reflexivity|]. f_equal. apply IH. lia. Qed.
Lemma sets_mask deps xc yc mask : (forall i e, oindex xc i = Ok e -> incl (e_deps e) deps) -> (forall i e, oindex yc i = Ok e -> incl (e_deps e) deps) ->
  sets deps mask (cmp_mask_run xc yc mask).
Proof.
  intros Hx Hy. apply (sets_perm _ (map snd (rev (enumerate mask)))).
  { rewrite map_rev. rewrite <- Permutation_rev. unfold enumerate. replace (map snd (combine (seq 0 (length mask)) mask)) with mask; [reflexivity|].
    generalize 0. induction mask as [|m mask IH]; intro k; cbn; [reflexivity|]. f_equal. apply IH. }
  unfold cmp_mask_run. generalize (rev (enumerate mask)) as l. intros l ND v1 v2 A F1 F2. generalize false as seen. revert ND v1 v2 A F1 F2.
  induction l as [|[i k] l IH]; intros ND v1 v2 A F1 F2 seen; cbn [ofold map fst snd]; [apply alike_nil|].
  rewrite !obind_assoc. apply alike_bind; [unfold oindex, ounwrap; destruct (nth_error xc i); discriminate|]. intros xe Ex.
  rewrite !obind_assoc. eapply alike_eval; [exact A|exact (Hx _ _ Ex)|intro xv].
  rewrite !obind_assoc. apply alike_bind; [unfold oindex, ounwrap; destruct (nth_error yc i); discriminate|]. intros ye Ey.
  rewrite !obind_assoc. eapply alike_eval; [exact A|exact (Hy _ _ Ey)|intro yv].
  rewrite !obind_assoc. cbv zeta. apply (alike_seq [k] (map snd l)); [exact ND|intros j Hj; apply F1; right; exact Hj|intros j Hj; apply F2; right; exact Hj|one F1 F2|].
  intros u1 u2 Au U1 U2. cbn [obind]. apply IH; auto; [inversion ND; assumption|]. exact (agree_after _ _ _ _ _ _ A Au).
Qed.
Lemma writes_mask deps xc yc mask : (forall i e, oindex xc i = Ok e -> incl (e_deps e) deps) -> (forall i e, oindex yc i = Ok e -> incl (e_deps e) deps) ->
  writes deps mask (cmp_mask_run xc yc mask).
Proof.
  intros Hx Hy. split; [apply sets_mask; assumption|]. split.
  - intro v. unfold cmp_mask_run. apply obind_total; [|intros []; discriminate]. apply ofold_total. intros [v1 seen] im. total.
  - left. intros v v' E. unfold cmp_mask_run in E. inv_ok E. eapply (fold_sets fst snd) in E0.
    + rewrite map_rev in E0. unfold enumerate in E0. rewrite snd_combine in E0 by apply seq_length. destruct E0 as [U N].
      split; [intros j Hj; apply U; rewrite <- in_rev; exact Hj|]. apply NoDup_rev in N. rewrite rev_involutive in N. exact N.
    + intros [u seen] im s' _ Es. cbn [fst]. inv_ok Es. inversion Es; subst. cbn [fst]. eapply set_step. eassumption.
Qed.

Lemma det_cmp_binary x y l s : det (cmp_binary x y l s).
Proof.
  unfold cmp_binary. eapply own_bind; [apply own_lift|]. cbv beta. intros _ U [_ ->]. cbv zeta. owl. owl. rename a into xc, a0 into yc.
  eapply own_bind; [apply own_wires|]. cbv beta. intros mask U [L P]. rewrite app_nil_r in P. owb. owb.
  gen mask (@nil nat); [rewrite app_nil_r; exact P| |det].
  apply writes_mask; intros i e E; [apply incl_appl|apply incl_appr]; eapply chunks_deps; eauto.
Qed.
Hint Resolve det_cmp_binary : det.
Lemma det_lt_binary x y : det (assert_lt_binary x y).
Proof. unfold assert_lt_binary, lt_binary. det. Qed.
Lemma det_le_binary x y : det (assert_le_binary x y).
Proof. unfold assert_le_binary, le_binary. det. Qed.
Lemma det_gt_binary x y : det (assert_gt_binary x y).
Proof. unfold assert_gt_binary, gt_binary. det. Qed.
Lemma det_ge_binary x y : det (assert_ge_binary x y).
Proof. unfold assert_ge_binary, ge_binary. det. Qed.
Hint Resolve det_lt_binary det_le_binary det_gt_binary det_ge_binary : det.
Lemma det_split x : det (split x).
Proof. unfold split. det. Qed.
Hint Resolve det_split : det.
Lemma det_cmp x y l s : det (cmp x y l s).
Proof. unfold cmp. det. Qed.
Hint Resolve det_cmp : det.
Lemma det_lt x y : det (assert_lt x y).
Proof. unfold assert_lt, lt. det. Qed.
Lemma det_le x y : det (assert_le x y).
Proof. unfold assert_le, le. det. Qed.
Lemma det_gt x y : det (assert_gt x y).
Proof. unfold assert_gt, gt. det. Qed.
Lemma det_ge x y : det (assert_ge x y).
Proof. unfold assert_ge, ge. det. Qed.
Hint Resolve det_lt det_le det_gt det_ge : det.
Lemma sets_modulus x y q r : sets (e_deps x ++ e_deps y) [q; r] (fun v =>
    let! xv := e_evaluate v x in
    let! yv := e_evaluate v y in
    let! qv := integer_division xv yv in
    let! v1 := v_set q qv v in
    let! rv := integer_modulus xv yv in
    v_set r rv v1).
Proof.
  assert (TD : forall c d, integer_division c d <> NoFuel) by (intros c d; unfold integer_division; destruct (d =? 0)%Z; [discriminate|apply el_from_total]).
  assert (TM : forall c d, integer_modulus c d <> NoFuel) by (intros c d; unfold integer_modulus; destruct (d =? 0)%Z; [discriminate|apply el_from_total]).
  intros ND v1 v2 A F1 F2. aev. aev. apply alike_bind; [apply TD|]. intros qv _.
  apply (alike_seq [q] [r]); [exact ND|intros k Hk; apply F1; right; exact Hk|intros k Hk; apply F2; right; exact Hk|one F1 F2|].
  intros u1 u2 _ U1 U2. apply alike_bind; [apply TM|]. intros rv _. one U1 U2.
Qed.
Lemma writes_modulus x y q r : writes (e_deps x ++ e_deps y) [q; r] (fun v =>
    let! xv := e_evaluate v x in
    let! yv := e_evaluate v y in
    let! qv := integer_division xv yv in
    let! v1 := v_set q qv v in
    let! rv := integer_modulus xv yv in
    v_set r rv v1).
Proof.
  split; [apply sets_modulus|]. split; [nofuel|]. left. intros v v' E. inv_ok E. eapply stops_two; eassumption.
Qed.
Lemma det_modulus x y : det (modulus x y).
Proof.
  unfold modulus. eapply own_bind; [apply own_wire|]. cbv beta. intros q U ->. oww. rename a into r. owb. owb.
  gen [q; r] (@nil nat); [apply perm_swap|apply writes_modulus|owr; reflexivity].
Qed.
Hint Resolve det_modulus : det.
Lemma det_divides x y : det (divides x y).
Proof. unfold divides. det. Qed.

Lemma snd_enumerate {A} (l : list A) : map snd (enumerate l) = l.
Proof. unfold enumerate. generalize 0. induction l as [|a l IH]; intro k; cbn; [reflexivity|]. f_equal. apply IH. Qed.
Lemma sets_summation x ws : sets (e_deps x) ws (fun v => let! s := e_evaluate v x in v_set_binary_unsigned ws s v).
Proof.
  intros ND v1 v2 A F1 F2. eapply alike_eval; [eassumption|apply incl_refl|intro z]. unfold v_set_binary_unsigned.
  apply alike_bind; [unfold oassert; destruct (_ <=? _); discriminate|]. intros _ _.
  pose proof (alike_sets (fun ik : nat * nat => snd ik) (fun ik => fbool (zbit z (fst ik))) (enumerate ws)) as S. rewrite snd_enumerate in S. exact (S ND v1 v2 F1 F2).
Qed.
Lemma writes_summation x ws : writes (e_deps x) ws (fun v => let! s := e_evaluate v x in v_set_binary_unsigned ws s v).
Proof.
  split; [apply sets_summation|]. split; [nofuel|]. left. intros v v' E. unfold v_set_binary_unsigned in E. inv_ok E. eapply (fold_sets (fun v => v) snd) in E; [rewrite snd_enumerate in E; exact E|].
  intros s ik s' _ Es. exact (set_step _ _ _ _ Es).
Qed.
Lemma det_binary_summation ts : det (binary_summation ts).
Proof.
  unfold binary_summation. cbv zeta. eapply own_bind; [apply own_lift|]. cbv beta. intros _ U [_ ->].
  eapply own_bind; [apply own_binary_wire|]. cbv beta. intros ws U [L P]. rewrite app_nil_r in P. owb. owb. owb.
  gen ws (@nil nat); [rewrite app_nil_r; exact P|apply writes_summation|owr; reflexivity].
Qed.
Hint Resolve det_divides det_binary_summation : det.
Lemma det_binary_assert_zero x : det (binary_assert_zero x).
Proof. unfold binary_assert_zero. det. Qed.
Hint Resolve det_binary_assert_zero : det.
Lemma det_summation_ignoring_overflow ts : det (binary_summation_ignoring_overflow ts).
Proof. unfold binary_summation_ignoring_overflow. det. Qed.
Lemma det_summation_asserting_no_overflow ts : det (binary_summation_asserting_no_overflow ts).
Proof. unfold binary_summation_asserting_no_overflow. det. Qed.
Lemma det_bitwise_not x : det (bitwise_not x).
Proof. unfold bitwise_not. det. Qed.
Lemma det_bitwise_and x y : det (bitwise_and x y).
Proof. unfold bitwise_and, bitwise2. det. Qed.
Lemma det_bitwise_or x y : det (bitwise_or x y).
Proof. unfold bitwise_or, bitwise2. det. Qed.
Lemma det_bitwise_xor x y : det (bitwise_xor x y).
Proof. unfold bitwise_xor, bitwise2. det. Qed.
Lemma det_rotate_inc x n : det (rotate_inc x n).
Proof. unfold rotate_inc. det. Qed.
Lemma det_rotate_dec x n : det (rotate_dec x n).
Proof. unfold rotate_dec. det. Qed.
Lemma det_shift_inc x n : det (shift_inc x n).
Proof. unfold shift_inc. det. Qed.
Lemma det_shift_dec x n : det (shift_dec x n).
Proof. unfold shift_dec. det. Qed.
Lemma det_select_pairs b items : det (select_pairs b items).
Proof.
  assert (G : forall n items, length items < n -> det (select_pairs b items)).
  { induction n as [|n IH]; intros l L; [lia|]. destruct l as [|x [|y l]]; cbn [select_pairs]; [det|det|]. cbn [length] in L.
    apply det_bind; [det|intro]. apply det_bind; [apply IH; lia|intro]. det. }
  apply (G (S (length items))). lia.
Qed.
Hint Resolve det_select_pairs : det.
Lemma det_random_access_binary bits : forall items, det (random_access_binary items bits).
Proof.
  induction bits as [|b bits IH]; intro items.
  - destruct items as [|x [|y l]]; cbn [random_access_binary]; det.
  - destruct items as [|x [|y l]]; cbn [random_access_binary]; [|det|]; (apply det_bind; [det|intro; apply IH]).
Qed.
Hint Resolve det_random_access_binary : det.
Lemma det_random_access items i : det (random_access items i).
Proof. unfold random_access. det. Qed.

Lemma own_create_switch U x y : own U (create_switch x y) (fun t U' => U' = fst (fst t) :: U).
Proof. unfold create_switch. eapply own_bind; [apply own_boolean_wire|]. cbv beta. intros w U' ->. owb. owr. reflexivity. Qed.
Lemma own_switch_layer U l n : own U (switch_layer l n) (fun ts U' => length ts = n /\ Permutation U' (map (fun t => fst (fst t)) ts ++ U)).
Proof.
  unfold switch_layer. eapply own_weaken; [apply (own_bmap _ (fun t : wire * expr * expr => [fst (fst t)]))|].
  - intros V i. owl. owl. eapply own_weaken; [apply own_create_switch|]. cbv beta. intros t U' ->. reflexivity.
  - cbv beta. intros ts U' [L P]. rewrite seq_length in L. split; [exact L|]. replace (map _ ts) with (flat_map (fun t : wire * expr * expr => [fst (fst t)]) ts); [exact P|].
    clear. induction ts as [|t ts IH]; cbn; congruence.
Qed.
Lemma sets_2x2 a b c d w : sets (e_deps a ++ e_deps b ++ e_deps c ++ e_deps d) [w] (fun v =>
    let! av := e_evaluate v a in
    let! bv := e_evaluate v b in
    let! cv := e_evaluate v c in
    let! dv := e_evaluate v d in
    if (av =? cv)%Z && (bv =? dv)%Z then v_set_boolean w false v
    else if (av =? dv)%Z && (bv =? cv)%Z then v_set_boolean w true v
    else Panic).
Proof.
  intros ND v1 v2 A F1 F2. do 4 (eapply alike_eval; [eassumption|
    first [apply incl_appl, incl_refl|apply incl_appr, incl_appl, incl_refl|apply incl_appr, incl_appr, incl_appl, incl_refl|apply incl_appr, incl_appr, incl_appr, incl_refl]|intro]).
  destruct (_ && _); [one F1 F2|]. destruct (_ && _); [one F1 F2|exact I].
Qed.
Lemma writes_2x2 a b c d w : writes (e_deps a ++ e_deps b ++ e_deps c ++ e_deps d) [w] (fun v =>
    let! av := e_evaluate v a in
    let! bv := e_evaluate v b in
    let! cv := e_evaluate v c in
    let! dv := e_evaluate v d in
    if (av =? cv)%Z && (bv =? dv)%Z then v_set_boolean w false v
    else if (av =? dv)%Z && (bv =? cv)%Z then v_set_boolean w true v
    else Panic).
Proof.
  split; [apply sets_2x2|]. split; [nofuel|]. left. intros v v' E. inv_ok E. destruct (_ && _) in E; [eapply stops_one, E|]. destruct (_ && _) in E; [eapply stops_one, E|discriminate].
Qed.
Lemma det_2x2 a b c d : det (assert_permutation_2x2 a b c d).
Proof.
  unfold assert_permutation_2x2. eapply own_bind; [apply own_create_switch|]. cbv beta. intros [[w c'] d'] U ->. cbn [fst]. owb. owb.
  apply (own_generator _ [w] []); [reflexivity|apply writes_2x2].
Qed.
Hint Resolve det_2x2 : det.

Lemma perm_dec (l m : list Z) : Permutation l m \/ ~ Permutation l m.
Proof.
  revert m. induction l as [|x l IH]; intro m.
  - destruct m as [|y m]; [left; constructor|right]. intro P. apply Permutation_nil in P. discriminate.
  - destruct (in_dec Z.eq_dec x m) as [I|I].
    + apply in_split in I. destruct I as (m1 & m2 & ->). destruct (IH (m1 ++ m2)) as [P|P]; [left; apply Permutation_cons_app, P|right].
      intro Q. apply P. exact (Permutation_cons_app_inv _ _ Q).
    + right. intro P. apply I. apply (Permutation_in x P). left. reflexivity.
Qed.
Lemma sets_route (Hord : (2 <= order)%Z) a b sa sb : 1 <= length a -> length sa = na (length a) -> length sb = nb (length a) ->
  sets (flat_map e_deps a ++ flat_map e_deps b) (sa ++ sb) (fun v =>
    let! a_values := omap (e_evaluate v) a in
    let! b_values := omap (e_evaluate v) b in
    route a_values b_values sa sb v).
Proof.
  intros Ha La Lb ND v1 v2 A F1 F2. eapply alike_evals; [eassumption|apply incl_appl, incl_refl|]. intros av Hav.
  eapply alike_evals; [eassumption|apply incl_appr, incl_refl|]. intros bv Hbv.
  destruct (perm_dec av bv) as [P|P].
  - destruct (route_spec Hord av bv P ltac:(lia)) as (f & g & _ & _ & _ & R). rewrite Hav in R.
    assert (SZ : sizes (length a) (sa, sb)) by (unfold sizes; auto).
    destruct (R (sa, sb) v1 SZ F1) as (u1 & E1 & O1 & S1), (R (sa, sb) v2 SZ F2) as (u2 & E2 & O2 & S2). cbn [fst snd] in *. rewrite E1, E2. split.
    + intros k Hk. apply in_app_or in Hk.
      assert (X : exists side i, i < numb (length a) side /\ k = wireof (sa, sb) side i).
      { destruct Hk as [Hk|Hk]; apply (In_nth _ _ 0) in Hk; destruct Hk as (i & Hi & E); [exists false, i|exists true, i]; cbn [numb wireof sel fst snd]; split; auto; lia. }
      destruct X as (side & i & Hi & ->). rewrite (S1 side i Hi), (S2 side i Hi). split; [reflexivity|discriminate].
    + intros k Hk. auto.
  - pose proof (route_start av bv (sa, sb)) as R. cbn [fst snd] in R. rewrite !R. destruct (length av =? length bv); [|exact I].
    rewrite (proj2 (bimap_from_lists_spec Z.eqb Z.eqb_eq av bv) P). exact I.
Qed.
Lemma writes_route (Hord : (2 <= order)%Z) a b sa sb : 3 <= length a -> length sa = na (length a) -> length sb = nb (length a) ->
  writes (flat_map e_deps a ++ flat_map e_deps b) (sa ++ sb) (fun v =>
    let! a_values := omap (e_evaluate v) a in
    let! b_values := omap (e_evaluate v) b in
    route a_values b_values sa sb v).
Proof.
  intros Ha La Lb. split; [apply sets_route; auto; lia|]. split.
  - intro v. apply obind_total; [apply omap_total; intro; apply e_evaluate_total|intro]. apply obind_total; [apply omap_total; intro; apply e_evaluate_total|intro]. apply route_total.
  - right. exists a, b, sa, sb. repeat split; auto. rewrite La. unfold na. change 1 with (2 / 2). apply Nat.div_le_mono; lia.
Qed.
Lemma det_net (Hord : (2 <= order)%Z) f a b : (forall a b, det (assert_permutation_fuel f a b)) -> 3 <= length a -> det (net f a b).
Proof.
  intros IH Ha. unfold net. cbv zeta. eapply own_bind; [apply own_switch_layer|]. cbv beta. intros las U [La PA].
  eapply own_bind; [apply own_switch_layer|]. cbv beta. intros lbs U' [Lb PB]. rewrite PA, app_nil_r in PB. clear U PA.
  eapply own_bind; [apply own_det; solve [det]|]. cbv beta. intros [[[c1a c1b] c2a] c2b] U ->.
  eapply own_bind; [apply own_det, IH|]. cbv beta. intros _ U ->. eapply own_bind; [apply own_det, IH|]. cbv beta. intros _ U ->.
  apply (own_generator _ (map (fun s => fst (fst s)) las ++ map (fun s => fst (fst s)) lbs) []).
  - rewrite app_nil_r, PB. apply Permutation_app_comm.
  - apply writes_route; auto; rewrite map_length; [exact La|exact Lb].
Qed.
Lemma det_fuel (Hord : (2 <= order)%Z) : forall f a b, det (assert_permutation_fuel f a b).
Proof.
  induction f as [|f IH]; intros a b; [apply det_lift|].
  destruct (Nat.eq_dec (length a) (length b)) as [L|L]; [|intros s x s' E; rewrite (fuel_mismatch f a b L) in E; discriminate].
  destruct (Nat.le_gt_cases 3 (length a)) as [G|G].
  - rewrite (fuel_unfold f a b G L). apply det_bind; [apply det_lift|]. intros _. apply det_net; [exact Hord|exact IH|lia].
  - destruct a as [|x1 [|x2 [|x3 a]]]; cbn [length] in G; try lia; destruct b as [|y1 [|y2 [|y3 b]]]; cbn [length] in L; try discriminate; cbn [assert_permutation_fuel]; det.
Qed.
Lemma det_assert_permutation (Hord : (2 <= order)%Z) a b : det (assert_permutation a b).
Proof. apply det_fuel, Hord. Qed.

Lemma sets_sort xs ws : length ws = length xs -> sets (flat_map e_deps xs) ws (fun v =>
    let! items := omap (e_evaluate v) xs in
    ofold (fun v' ix => let! w := oindex ws (fst ix) in v_set w (snd ix) v') (enumerate (sort_items items)) v).
Proof.
  intros L ND v1 v2 A F1 F2. eapply alike_evals; [eassumption|apply incl_refl|]. intros items Li.
  assert (LS : length (sort_items items) = length ws) by (rewrite sort_items_length; lia).
  pose proof (alike_sets (fun ix : nat * Z => nth (fst ix) ws 0) (fun ix => snd ix) (enumerate (sort_items items))) as S.
  assert (K : map (fun ix : nat * Z => nth (fst ix) ws 0) (enumerate (sort_items items)) = ws).
  { rewrite <- (map_map fst (fun i => nth i ws 0)). unfold enumerate. rewrite map_fst_combine by (rewrite seq_length; reflexivity). rewrite LS. apply map_nth_seq0. }
  rewrite K in S. specialize (S ND v1 v2 F1 F2).
  rewrite !(ofold_ext (fun v' ix => let! w := oindex ws (fst ix) in v_set w (snd ix) v') (fun v ix => v_set (nth (fst ix) ws 0) (snd ix) v)); [exact S| |];
    intros [i z] s Hi; apply in_combine_l in Hi; apply in_seq in Hi; cbn [fst snd]; rewrite (oindex_nth ws i 0) by lia; reflexivity.
Qed.
Lemma writes_sort xs ws : length ws = length xs -> writes (flat_map e_deps xs) ws (fun v =>
    let! items := omap (e_evaluate v) xs in
    ofold (fun v' ix => let! w := oindex ws (fst ix) in v_set w (snd ix) v') (enumerate (sort_items items)) v).
Proof.
  intro L. split; [apply sets_sort, L|]. split; [nofuel|]. left. intros v v' E. apply obind_ok in E. destruct E as (items & Ei & E).
  assert (Li : length items = length xs).
  { clear - Ei. revert items Ei. induction xs as [|x l IH]; intros items Ei; cbn [omap] in Ei; [inversion Ei; reflexivity|].
    apply obind_ok in Ei. destruct Ei as (y & _ & Ei). apply obind_ok in Ei. destruct Ei as (t & Et & Ei). inversion Ei. cbn [length]. f_equal. exact (IH t Et). }
  assert (LS : length (sort_items items) = length ws) by (rewrite sort_items_length; lia).
  eapply (fold_sets (fun v => v) (fun ix : nat * Z => nth (fst ix) ws 0)) in E.
  - assert (K : map (fun ix : nat * Z => nth (fst ix) ws 0) (enumerate (sort_items items)) = ws).
    { rewrite <- (map_map fst (fun i => nth i ws 0)). unfold enumerate. rewrite map_fst_combine by (rewrite seq_length; reflexivity). rewrite LS. apply map_nth_seq0. }
    rewrite K in E. exact E.
  - intros s [i z] s' Hi Es. apply in_combine_l, in_seq in Hi. cbn [fst snd] in *. rewrite (oindex_nth ws i 0) in Es by lia. exact (set_step _ _ _ _ Es).
Qed.
Lemma det_sort_ascending (Hord : (2 <= order)%Z) l : det (sort_ascending l).
Proof.
  unfold sort_ascending. cbv zeta. eapply own_bind; [apply own_wires|]. cbv beta. intros ws U [L P]. rewrite app_nil_r in P.
  eapply own_bind; [apply own_det, det_assert_permutation, Hord|]. cbv beta. intros _ U' ->. owb. owb. owb. owb. owb.
  gen ws (@nil nat); [rewrite app_nil_r; exact P|apply writes_sort, L|owr; reflexivity].
Qed.
Lemma det_sort_descending (Hord : (2 <= order)%Z) l : det (sort_descending l).
Proof. unfold sort_descending. apply det_bind; [apply det_sort_ascending, Hord|]. intro. apply det_ret. Qed.

Lemma sets_root x r e : sets (e_deps x) [r] (fun v => let! xv := e_evaluate v x in v_set r (fexp xv e) v).
Proof. intros ND v1 v2 A F1 F2. aev. one F1 F2. Qed.
Lemma writes_root x r e : writes (e_deps x) [r] (fun v => let! xv := e_evaluate v x in v_set r (fexp xv e) v).
Proof.
  split; [apply sets_root|]. split; [nofuel|]. left. intros v v' E. inv_ok E. eapply stops_one, E.
Qed.
Lemma det_monomial_inverse n x : det (monomial_inverse n x).
Proof.
  unfold monomial_inverse. eapply own_bind; [apply own_wire|]. cbv beta. intros r U ->. owb. owb. owb.
  gen [r] (@nil nat); [reflexivity|apply writes_root|owr; reflexivity].
Qed.
Hint Resolve det_monomial_inverse : det.
Lemma det_monomial n x : det (permute (monomial n) x) /\ det (p_inverse (monomial n) x).
Proof. cbn [permute p_inverse monomial]. refine (conj _ _); det. Qed.
Lemma det_mimc_encrypt cs n k x : det (mimc_encrypt cs (monomial n) k x).
Proof. unfold mimc_encrypt. cbn [permute p_inverse monomial]. det. Qed.
Lemma det_mimc_decrypt cs n k x : det (mimc_decrypt cs (monomial n) k x).
Proof. unfold mimc_decrypt. cbn [permute p_inverse monomial]. det. Qed.
Lemma det_davies_meyer c x y : (forall k i, det (encrypt c k i)) -> det (davies_meyer c x y).
Proof. intro H. unfold davies_meyer. apply det_bind; [apply H|intro; apply det_ret]. Qed.
Lemma det_miyaguchi_preneel c x y : (forall k i, det (encrypt c k i)) -> det (miyaguchi_preneel c x y).
Proof. intro H. unfold miyaguchi_preneel. apply det_bind; [apply H|intro; apply det_ret]. Qed.
Lemma det_merkle_damgard iv m blocks : (forall x y, det (m x y)) -> det (merkle_damgard iv m blocks).
Proof. intro H. unfold merkle_damgard. apply det_bind; [apply det_bfold; intros; apply H|intro]. apply det_bind; [det|intro; apply H]. Qed.
Lemma det_merkle_tree_root m leaf path : (forall x y, det (m x y)) -> det (merkle_tree_root m leaf path).
Proof. intro H. unfold merkle_tree_root, merkle_tree_step. apply det_bfold. intros. apply det_bind; [det|intro; apply H]. Qed.
Lemma det_assert_membership m leaf root path : (forall x y, det (m x y)) -> det (assert_merkle_tree_membership m leaf root path).
Proof. intro H. unfold assert_merkle_tree_membership. apply det_bind; [apply det_merkle_tree_root, H|intro; det]. Qed.
Lemma det_sponge_step sp input cap : (forall xs, det (mp_permute (sp_perm sp) xs)) -> det (sponge_step sp input cap).
Proof. intro M. unfold sponge_step. cbv zeta. apply det_bind; [apply M|intro]. det. Qed.
Lemma det_sponge_squeeze sp n : (forall xs, det (mp_permute (sp_perm sp) xs)) -> forall fuel input cap outputs, det (sponge_squeeze fuel sp input cap outputs n).
Proof.
  intros M fuel. induction fuel as [|f IH]; intros input cap outputs; cbn [sponge_squeeze]; destruct (length outputs <? n)%nat; try apply det_ret; [apply det_lift|].
  apply det_bind; [apply det_sponge_step, M|]. intros [i' c']. apply IH.
Qed.
Lemma det_sponge sp inputs n : (forall xs, det (mp_permute (sp_perm sp) xs)) -> det (sponge_evaluate sp inputs n).
Proof.
  intro M. unfold sponge_evaluate. apply det_bind; [det|intro]. apply det_bind.
  - apply det_bfold. intros. apply det_bind; [det|intro]. apply det_sponge_step, M.
  - intros [i c]. apply det_bind; [apply det_sponge_squeeze, M|intro]. det.
Qed.
Lemma det_sbox sb x : det (sbox_permute sb x) /\ det (sbox_inverse sb x).
Proof.
  unfold sbox_permute, sbox_inverse. unfold sbox_to_permutation. destruct sb.
  1,2: destruct (el_from _) as [e| |]; cbn [obind]; try (refine (conj _ _); intros b a b' E; discriminate E);
    destruct (monomial_new e) as [n| |]; cbn [obind]; try (refine (conj _ _); intros b a b' E; discriminate E);
    exact (det_monomial n x).
  exact (conj (det_inverse_or_zero x) (det_inverse_or_zero x)).
Qed.
Lemma det_poseidon p xs : det (poseidon_permute p xs).
Proof.
  unfold poseidon_permute. apply det_bind; [det|intro]. apply det_bind; [det|intro]. apply det_bfold. intros st r. apply det_bind; [|intro; det].
  destruct (poseidon_full_round p r); [apply det_bmap; intro; apply (proj1 (det_sbox _ _))|].
  destruct st; cbn [update_first]; [det|]. apply det_bind; [apply (proj1 (det_sbox _ _))|intro; det].
Qed.
Lemma det_rescue r xs : det (rescue_permute r xs).
Proof.
  unfold rescue_permute, rescue_pi1, rescue_pi2. cbn [permute p_inverse monomial]. det.
Qed.
Lemma det_ed_expr_new C x y : det (ed_expr_new C x y).
Proof. unfold ed_expr_new. det. Qed.
Lemma det_ed_add C l r : det (ed_add_expressions C l r).
Proof. unfold ed_add_expressions. destruct l, r. det. Qed.
Lemma det_ed_double C p : det (ed_double_expression C p).
Proof. unfold ed_double_expression. destruct p. det. Qed.
Hint Resolve det_ed_add det_ed_double : det.
Lemma det_mul_boolean C p b : det (mul_boolean_expression (edwards_group C) p b).
Proof. unfold mul_boolean_expression. det. Qed.
Hint Resolve det_mul_boolean : det.
Lemma det_mul_scalar C p e : det (mul_scalar_expression (edwards_group C) p e).
Proof.
  unfold mul_scalar_expression. apply det_bind; [det|intro]. apply det_bind; [det|intro]. apply det_bind; [|intro; det].
  apply det_bfold. intros st bit. apply det_bind; [det|intro]. apply det_bind; [exact (det_ed_add C _ _)|intro].
  apply det_bind; [exact (det_ed_double C _)|intro]. det.
Qed.
Hint Resolve det_mul_scalar : det.
Lemma det_schnorr C gen sg msg pk (m : compression) : (forall x y, det (m x y)) -> det (schnorr_verify (mkCyclic (edwards_group C) gen) sg msg pk m).
Proof.
  intro H. unfold schnorr_verify. cbn [cg_group]. apply det_bind; [det|intro]. apply det_bind; [det|intro]. apply det_bind; [det|intro].
  apply det_bind; [exact (det_ed_add C _ _)|intro]. apply det_bind; [apply H|intro]. det.
Qed.
End Calls.

(** ** Execution *)
Section Exec.
Context {F : Field}.

(** the generator made to refuse when one of its wires has a value *)
Definition guarded (p : wgen * list nat) : wgen :=
  mkG (g_inputs (fst p)) (fun v => if fresh_all v (snd p) then g_run (fst p) v else Panic).
Definition ready (L : list (wgen * list nat)) (v : values) : Prop := writes_all L /\ NoDup (outs L) /\ unset_in (outs L) v.

(** the declared inputs as a list of values *)
Definition snapshot (ks o : list nat) (f : nat -> option Z) : values :=
  flat_map (fun k => if memb k o then [] else match f k with Some x => [(k, x)] | None => [] end) ks.
Lemma snapshot_get ks o f k : m_get k (snapshot ks o f) = if memb k o then None else if memb k ks then f k else None.
Proof.
  induction ks as [|j ks IH]; [cbn; destruct (memb k o); reflexivity|]. cbn [snapshot flat_map].
  change (flat_map _ ks) with (snapshot ks o f). change (memb k (j :: ks)) with (Nat.eqb k j || memb k ks).
  destruct (memb j o) eqn:Ej; cbn [app].
  - rewrite IH. destruct (Nat.eqb_spec k j) as [->|N]; [rewrite Ej; reflexivity|reflexivity].
  - destruct (f j) as [x|] eqn:Fj; cbn [app m_get].
    + rewrite IH. destruct (Nat.eqb_spec k j) as [->|N]; [rewrite Ej, Fj; reflexivity|reflexivity].
    + rewrite IH. destruct (Nat.eqb_spec k j) as [->|N]; [|reflexivity]. rewrite Ej, Fj. cbn [orb]. destruct (memb j ks); reflexivity.
Qed.
Lemma snapshot_ext ks o f1 f2 : (forall k, In k ks -> f1 k = f2 k) -> snapshot ks o f1 = snapshot ks o f2.
Proof.
  intro H. unfold snapshot. induction ks as [|k ks IH]; cbn [flat_map]; [reflexivity|]. rewrite (H k) by (left; reflexivity). f_equal. apply IH.
  intros j Hj. apply H. right. exact Hj.
Qed.
Lemma guarded_dd p : writes (g_inputs (fst p)) (snd p) (g_run (fst p)) -> NoDup (snd p) -> dep_determined (guarded p) (snd p).
Proof.
  destruct p as [g o]. cbn [fst snd]. intros [W _] ND. unfold guarded. cbn [fst snd].
  exists (fun f => match g_run g (snapshot (g_inputs g) o f) with Ok u => Some (fun k => match m_get k u with Some x => x | None => 0%Z end) | _ => None end).
  cbn [g_inputs g_run]. split.
  - intros f1 f2 H. rewrite (snapshot_ext _ o f1 f2 H). reflexivity.
  - intro v. destruct (fresh_all v o) eqn:E; [|destruct (g_run g (snapshot (g_inputs g) o (fun k => m_get k v))); unfold fresh_all in E; try rewrite E; reflexivity].
    pose proof E as E'. unfold fresh_all in E'. rewrite E'. rewrite fresh_all_spec in E.
    specialize (W ND (snapshot (g_inputs g) o (fun k => m_get k v)) v).
    assert (A : agree_on (g_inputs g) (snapshot (g_inputs g) o (fun k => m_get k v)) v).
    { intros k Hk. rewrite snapshot_get. apply memb_In in Hk. rewrite Hk. destruct (memb k o) eqn:M; [|reflexivity]. apply memb_In in M. symmetry. apply E, M. }
    assert (U : unset_in o (snapshot (g_inputs g) o (fun k => m_get k v))).
    { intros k Hk. rewrite snapshot_get. apply memb_In in Hk. rewrite Hk. reflexivity. }
    specialize (W A U E). destruct (g_run g (snapshot _ _ _)) as [u| |], (g_run g v) as [u'| |]; try contradiction; [|reflexivity].
    destruct W as [W1 W2]. exists u'. split; [reflexivity|]. intro k. destruct (memb k o) eqn:M.
    + apply memb_In in M. destruct (W1 k M) as [<- N]. destruct (m_get k u); congruence.
    + apply W2. intro I. apply memb_In in I. congruence.
Qed.
Lemma fresh_all_true v o : unset_in o v -> fresh_all v o = true.
Proof. intro H. apply fresh_all_spec. exact H. Qed.

Lemma outs_cons p L : outs (p :: L) = snd p ++ outs L.
Proof. reflexivity. Qed.
Lemma NoDup_app_parts {A} (l m : list A) : NoDup (l ++ m) -> NoDup l /\ NoDup m /\ forall x, In x l -> ~ In x m.
Proof.
  induction l as [|a l IH]; cbn; intro H; [repeat split; auto; constructor|]. inversion H; subst. destruct (IH H3) as (I1 & I2 & I3). repeat split; auto.
  - constructor; auto. intro I. apply H2, in_or_app. auto.
  - intros x [->|I]; [|auto]. intro I. apply H2, in_or_app. auto.
Qed.
Lemma NoDup_app_intro {A} (l m : list A) : NoDup l -> NoDup m -> (forall x, In x l -> ~ In x m) -> NoDup (l ++ m).
Proof.
  induction l as [|a l IH]; cbn; intros N1 N2 D; [exact N2|]. inversion N1; subst. constructor.
  - intro I. apply in_app_or in I. destruct I as [I|I]; [contradiction|]. exact (D a (or_introl eq_refl) I).
  - apply IH; auto.
Qed.
Lemma run_ready p L v : ready (p :: L) v -> match g_run (fst p) v with
  | Ok u => ready L u /\ (forall k, In k (snd p) -> m_get k u <> None) /\ (forall k, ~ In k (snd p) -> m_get k u = m_get k v)
  | Panic => True | NoFuel => False end.
Proof.
  intros (W & ND & U). inversion W as [|? ? [W1 _] W2]; subst. rewrite outs_cons in *. destruct (NoDup_app_parts _ _ ND) as (N1 & N2 & N3).
  assert (U1 : unset_in (snd p) v) by (intros k Hk; apply U, in_or_app; auto). assert (A : agree_on (g_inputs (fst p)) v v) by (intros k _; reflexivity).
  specialize (W1 N1 v v A U1 U1). destruct (g_run (fst p) v) as [u| |]; [|exact I|contradiction]. destruct W1 as [S1 S2]. split.
  - split; [exact W2|]. split; [exact N2|]. intros k Hk. rewrite (proj1 (S2 k (fun I => N3 k I Hk))). apply U, in_or_app. auto.
  - split; [intros k Hk; apply S1, Hk|intros k Hk; apply S2, Hk].
Qed.
Lemma guarded_run p L v : ready (p :: L) v -> g_run (guarded p) v = g_run (fst p) v.
Proof. intros (_ & _ & U). unfold guarded. cbn [g_run]. rewrite fresh_all_true; [reflexivity|]. intros k Hk. apply U. rewrite outs_cons. apply in_or_app. auto. Qed.

Lemma exec_pass_guarded L : forall v, ready L v ->
  match exec_pass (map fst L) v, exec_pass (map guarded L) v with
  | Ok (k1, v1, p1), Ok (k2, v2, p2) => v1 = v2 /\ p1 = p2 /\ exists K, k1 = map fst K /\ k2 = map guarded K /\ ready K v1 /\
      incl (outs K) (outs L) /\ (forall k, ~ In k (outs L) -> m_get k v1 = m_get k v)
  | Panic, Panic => True
  | _, _ => False
  end.
Proof.
  induction L as [|p L IH]; intros v R; cbn [map exec_pass].
  - repeat split; auto. exists []. repeat split; auto; try constructor; [intros k []|intros k []].
  - pose proof (guarded_run p L v R) as EG. change (g_inputs (guarded p)) with (g_inputs (fst p)). destruct (v_contains_all v (g_inputs (fst p))).
    + rewrite EG. pose proof (run_ready p L v R) as H. destruct (g_run (fst p) v) as [u| |]; cbn [obind]; auto. destruct H as (RL & _ & Hk).
      specialize (IH u RL). destruct (exec_pass (map fst L) u) as [[[k1 v1] p1]| |], (exec_pass (map guarded L) u) as [[[k2 v2] p2]| |]; cbn [obind]; auto.
      destruct IH as (-> & -> & K & -> & -> & RK & IK & HK). split; [reflexivity|]. split; [reflexivity|]. exists K. repeat split; auto; try apply RK.
      * rewrite outs_cons. apply incl_appr, IK.
      * rewrite outs_cons. intros k N. rewrite HK by (intro I; apply N, in_or_app; auto). apply Hk. intro I. apply N, in_or_app. auto.
    + assert (RL : ready L v).
      { destruct R as (W & ND & U). rewrite outs_cons in *. destruct (NoDup_app_parts _ _ ND) as (N1 & N2 & N3). split; [inversion W; assumption|].
        split; [exact N2|]. intros k Hk. apply U, in_or_app. auto. }
      specialize (IH v RL). destruct (exec_pass (map fst L) v) as [[[k1 v1] p1]| |], (exec_pass (map guarded L) v) as [[[k2 v2] p2]| |]; cbn [obind]; auto.
      destruct IH as (-> & -> & K & -> & -> & RK & IK & HK). split; [reflexivity|]. split; [reflexivity|]. exists (p :: K). repeat split; auto.
      * constructor; [destruct R as (W & _); inversion W; assumption|apply RK].
      * destruct R as (_ & ND & _). rewrite outs_cons in *. destruct (NoDup_app_parts _ _ ND) as (N1 & N2 & N3). apply NoDup_app_intro; [exact N1|apply RK|].
        intros x Hx I. exact (N3 x Hx (IK x I)).
      * rewrite outs_cons. intros k Hk. apply in_app_or in Hk. destruct Hk as [Hk|Hk]; [|apply RK, Hk]. destruct R as (_ & ND & U). rewrite outs_cons in *.
        destruct (NoDup_app_parts _ _ ND) as (_ & _ & N3). rewrite (HK k (N3 k Hk)). apply U, in_or_app. auto.
      * rewrite !outs_cons. intros k Hk. apply in_app_or in Hk. apply in_or_app. destruct Hk as [Hk|Hk]; [auto|right; apply IK, Hk].
      * rewrite outs_cons. intros k N. apply HK. intro I. apply N, in_or_app. auto.
Qed.

Lemma exec_loop_guarded fuel : forall L v, ready L v ->
  match exec_loop fuel (map fst L) v, exec_loop fuel (map guarded L) v with
  | Ok (k1, v1), Ok (k2, v2) => v1 = v2 /\ exists K, k1 = map fst K /\ k2 = map guarded K
  | Panic, Panic => True
  | NoFuel, NoFuel => True
  | _, _ => False
  end.
Proof.
  induction fuel as [|f IH]; intros L v R; cbn [exec_loop]; [exact I|]. pose proof (exec_pass_guarded L v R) as H.
  destruct (exec_pass (map fst L) v) as [[[k1 v1] p1]| |], (exec_pass (map guarded L) v) as [[[k2 v2] p2]| |]; cbn [obind]; try contradiction; auto.
  destruct H as (-> & -> & K & -> & -> & RK & _). destruct p2; [apply IH, RK|]. split; [reflexivity|]. exists K. auto.
Qed.
Lemma execute_guarded L cs v : ready L v -> execute (mkGadget cs (map fst L)) v = execute (mkGadget cs (map guarded L)) v.
Proof.
  intro R. unfold execute. cbn [gd_generators gd_constraints]. rewrite !map_length. pose proof (exec_loop_guarded (S (length L)) L v R) as H.
  destruct (exec_loop _ (map fst L) v) as [[k1 v1]| |], (exec_loop _ (map guarded L) v) as [[k2 v2]| |]; cbn [obind]; try reflexivity; try contradiction.
  destruct H as (-> & K & -> & ->). rewrite !map_length. reflexivity.
Qed.
Lemma outs_perm L L' : Permutation L L' -> Permutation (outs L) (outs L').
Proof.
  intro P. unfold outs. rewrite <- !flat_map_concat_map. induction P; cbn; auto.
  - apply Permutation_app_head. assumption.
  - rewrite !app_assoc. apply Permutation_app_tail, Permutation_app_comm.
  - etransitivity; eassumption.
Qed.
Lemma ready_perm L L' v : Permutation L L' -> ready L v -> ready L' v.
Proof.
  intros P (W & ND & U). split; [eapply Permutation_Forall; eauto|]. split; [eapply Permutation_NoDup; [apply outs_perm; eassumption|exact ND]|].
  intros k Hk. apply U. revert Hk. apply Permutation_in, outs_perm, Permutation_sym, P.
Qed.
Lemma ready_dd L v : ready L v -> Forall (fun p => dep_determined (fst p) (snd p)) (map (fun p => (guarded p, snd p)) L).
Proof.
  intros (W & ND & _). clear v. induction L as [|p L IH]; cbn [map]; constructor.
  - inversion W; subst. rewrite outs_cons in ND. cbn [fst snd]. apply guarded_dd; [assumption|]. apply (NoDup_app_parts _ _ ND).
  - inversion W; subst. rewrite outs_cons in ND. apply IH; [assumption|]. apply (NoDup_app_parts _ _ ND).
Qed.
Lemma ready_confluent L L' cs v : ready L v -> Permutation L L' ->
  same_outcome (execute (mkGadget cs (map fst L)) v) (execute (mkGadget cs (map fst L')) v).
Proof.
  intros R P. rewrite (execute_guarded L cs v R), (execute_guarded L' cs v (ready_perm _ _ _ P R)).
  pose proof (execute_confluent (map (fun p => (guarded p, snd p)) L) (map (fun p => (guarded p, snd p)) L') cs v (ready_dd L v R) (Permutation_map _ P)) as H.
  rewrite !map_map in H. cbn [fst] in H. exact H.
Qed.
(** A schedule that runs them all sets all their wires and no other. *)
Lemma rio_sets L : forall v v', ready L v -> runs_in_order (map fst L) v v' ->
  (forall k, In k (outs L) -> m_get k v' <> None) /\ (forall k, ~ In k (outs L) -> m_get k v' = m_get k v).
Proof.
  induction L as [|p L IH]; intros v v' R H; cbn [map] in H; inversion H; subst.
  - split; [intros k []|reflexivity].
  - pose proof (run_ready p L v R) as S. match goal with E : g_run _ v = Ok _ |- _ => rewrite E in S end. destruct S as (RL & S1 & S2).
    match goal with E : runs_in_order (map fst L) _ _ |- _ => destruct (IH _ _ RL E) as [I1 I2] end. rewrite outs_cons. split.
    + intros k Hk. apply in_app_or in Hk. destruct Hk as [Hk|Hk]; [|apply I1, Hk].
      destruct R as (_ & ND & _). rewrite outs_cons in ND. destruct (NoDup_app_parts _ _ ND) as (_ & _ & N3). rewrite (I2 k (N3 k Hk)). apply S1, Hk.
    + intros k N. rewrite I2 by (intro I; apply N, in_or_app; auto). apply S2. intro I. apply N, in_or_app. auto.
Qed.
Lemma execute_sets L cs v ok v' : ready L v -> execute (mkGadget cs (map fst L)) v = Ok (ok, v') ->
  (forall k, In k (outs L) -> m_get k v' <> None) /\ (forall k, ~ In k (outs L) -> m_get k v' = m_get k v).
Proof.
  intros R E. destruct (execute_rio _ _ _ _ E) as ((order & P & H) & _). cbn [gd_generators] in P.
  apply Permutation_map_inv in P. destruct P as (L' & -> & P). destruct (rio_sets L' v v' (ready_perm _ _ _ P R) H) as [I1 I2].
  pose proof (outs_perm _ _ P) as PO. split.
  - intros k Hk. apply I1. revert Hk. apply Permutation_in, PO.
  - intros k N. apply I2. intro I. apply N. revert I. apply Permutation_in, Permutation_sym, PO.
Qed.
End Exec.
