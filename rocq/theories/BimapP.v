(** [bimap_from_lists] returns a value-preserving bijection exactly for permutations. *)
From Coq Require Import ZArith List Bool Arith Lia Permutation.
From Verif Require Import Base WaksmanM.
Import ListNotations.
Open Scope nat_scope.

Section Bimap.
Context {T : Type} (eqb : T -> T -> bool) (eqb_ok : forall x y, eqb x y = true <-> x = y).

(** positions still available, and their values *)
Definition spare (m : list (T * list nat)) : list nat := flat_map snd m.
Definition spare_values (m : list (T * list nat)) : list T := flat_map (fun tl => map (fun _ => fst tl) (snd tl)) m.

Lemma pos_push_keys t i m : incl (map fst (pos_push eqb t i m)) (t :: map fst m).
Proof.
  induction m as [|[t' l] m IH]; cbn; [apply incl_refl|]. destruct (eqb t t'); cbn; [apply incl_tl, incl_refl|].
  intros x [<-|H]; [right; left; reflexivity|]. destruct (IH x H) as [->|H']; [left; reflexivity|right; right; exact H'].
Qed.
Lemma pos_push_nodup t i m : NoDup (map fst m) -> NoDup (map fst (pos_push eqb t i m)).
Proof using eqb_ok.
  induction m as [|[t' l] m IH]; cbn; intro H; [constructor; [intros []|constructor]|].
  destruct (eqb t t') eqn:E; cbn; [exact H|]. apply NoDup_cons_iff in H. destruct H as [H1 H2]. constructor; [|apply IH, H2].
  intro C. apply pos_push_keys in C. destruct C as [C|C]; [|contradiction]. symmetry in C. apply eqb_ok in C.
  assert (t = t') by (symmetry; apply eqb_ok; exact C). subst. congruence.
Qed.
Lemma pos_push_spare t i m : Permutation (spare (pos_push eqb t i m)) (i :: spare m).
Proof using.
  induction m as [|[t' l] m IH]; cbn; [reflexivity|]. destruct (eqb t t'); cbn.
  - rewrite <- app_assoc. cbn. symmetry. apply Permutation_middle.
  - rewrite IH. symmetry. apply Permutation_middle.
Qed.
Lemma pos_push_values t i m : Permutation (spare_values (pos_push eqb t i m)) (t :: spare_values m).
Proof using eqb_ok.
  induction m as [|[t' l] m IH]; cbn; [reflexivity|]. destruct (eqb t t') eqn:E; cbn.
  - apply eqb_ok in E. subst t'. rewrite map_app, <- app_assoc. cbn. symmetry. apply Permutation_middle.
  - fold (spare_values (pos_push eqb t i m)). rewrite IH. symmetry. apply Permutation_middle.
Qed.
Definition positions_ok (b : list T) (m : list (T * list nat)) : Prop :=
  Forall (fun tl => Forall (fun j => nth_error b j = Some (fst tl)) (snd tl)) m.
Lemma pos_push_ok b t i m : nth_error b i = Some t -> positions_ok b m -> positions_ok b (pos_push eqb t i m).
Proof using eqb_ok.
  intros Hi. induction m as [|[t' l] m IH]; cbn; intro H; [repeat constructor; exact Hi|].
  apply Forall_cons_iff in H. destruct H as [H1 H2]. destruct (eqb t t') eqn:E; constructor; [|exact H2|exact H1|exact (IH H2)].
  cbn in *. apply eqb_ok in E. subst. apply Forall_app. split; [exact H1|repeat constructor; exact Hi].
Qed.

Lemma pos_pop_spec b t m : NoDup (map fst m) -> positions_ok b m ->
  match pos_pop eqb t m with
  | Some (j, m') => map fst m' = map fst m /\ positions_ok b m' /\ nth_error b j = Some t /\
      Permutation (spare m) (j :: spare m') /\ Permutation (spare_values m) (t :: spare_values m')
  | None => ~ In t (spare_values m)
  end.
Proof using eqb_ok.
  induction m as [|[t' l] m IH]; cbn [pos_pop map fst]; intros ND HO; [intros []|].
  apply NoDup_cons_iff in ND. destruct ND as [N1 N2]. apply Forall_cons_iff in HO. destruct HO as [O1 O2]. cbn [fst snd] in O1.
  destruct (eqb t t') eqn:E.
  - apply eqb_ok in E. subst t'. destruct (rev l) as [|j l'] eqn:R.
    + assert (l = []) by (rewrite <- (rev_involutive l), R; reflexivity). subst l. cbn. intro C. apply N1.
      apply in_flat_map in C. destruct C as ([t' l'] & H1 & H2). apply in_map_iff in H2. destruct H2 as (x & Ex & _). cbn in Ex. subst t'.
      apply in_map_iff. exists (t, l'). auto.
    + assert (L : l = rev l' ++ [j]) by (rewrite <- (rev_involutive l), R; reflexivity). subst l. rewrite Forall_app in O1. destruct O1 as [O1 O3].
      split; [reflexivity|]. split; [constructor; [exact O1|exact O2]|]. split; [inversion O3; assumption|]. cbn. split.
      * rewrite <- app_assoc. symmetry. apply Permutation_middle.
      * rewrite map_app, <- app_assoc. cbn. symmetry. apply Permutation_middle.
  - specialize (IH N2 O2). destruct (pos_pop eqb t m) as [[j m']|].
    + destruct IH as (A1 & A2 & A3 & A4 & A5). cbn. split; [f_equal; exact A1|]. split; [constructor; assumption|]. split; [exact A3|].
      split; [rewrite A4|fold (spare_values m); fold (spare_values m'); rewrite A5]; symmetry; apply Permutation_middle.
    + cbn. intro C. apply in_app_iff in C. destruct C as [C|C]; [|exact (IH C)].
      apply in_map_iff in C. destruct C as (x & -> & _). assert (X : eqb t t = true) by (apply eqb_ok; reflexivity). congruence.
Qed.

Lemma combine_seq_app {A} (l r : list A) : forall k,
  combine (seq k (length (l ++ r))) (l ++ r) = combine (seq k (length l)) l ++ combine (seq (k + length l) (length r)) r.
Proof using.
  induction l as [|x l IH]; intro k; cbn [length seq app combine].
  - rewrite Nat.add_0_r. reflexivity.
  - f_equal. rewrite IH. do 3 f_equal. lia.
Qed.
Lemma enumerate_app {A} (l r : list A) : enumerate (l ++ r) = enumerate l ++ combine (seq (length l) (length r)) r.
Proof using. apply (combine_seq_app l r 0). Qed.
Lemma enumerate_snoc {A} (l : list A) x : enumerate (l ++ [x]) = enumerate l ++ [(length l, x)].
Proof using. rewrite enumerate_app. reflexivity. Qed.

Lemma positions_spec b : let m := fold_left (fun m iv => pos_push eqb (snd iv) (fst iv) m) (enumerate b) [] in
  NoDup (map fst m) /\ positions_ok b m /\ Permutation (spare m) (seq 0 (length b)) /\ Permutation (spare_values m) b.
Proof using eqb_ok.
  assert (G : forall l r, b = l ++ r -> let m := fold_left (fun m iv => pos_push eqb (snd iv) (fst iv) m) (enumerate l) [] in
    NoDup (map fst m) /\ positions_ok b m /\ Permutation (spare m) (seq 0 (length l)) /\ Permutation (spare_values m) l).
  { intro l. induction l as [|x l IH] using rev_ind; intros r Hb m.
    - unfold m. cbn. split; [constructor|]. split; [constructor|]. auto.
    - rewrite <- app_assoc in Hb. cbn in Hb. specialize (IH _ Hb). unfold m. rewrite enumerate_snoc, fold_left_app. cbn [fold_left fst snd].
      destruct IH as (I1 & I2 & I3 & I4). split; [apply pos_push_nodup, I1|]. split.
      + apply pos_push_ok; [|exact I2]. rewrite Hb, nth_error_app2 by lia. rewrite Nat.sub_diag. reflexivity.
      + rewrite app_length, seq_app. cbn [length seq plus]. split.
        * rewrite pos_push_spare, I3. apply Permutation_cons_append.
        * rewrite pos_push_values, I4. apply Permutation_cons_append. }
  apply (G b []). symmetry. apply app_nil_r.
Qed.

Lemma bm_insert_fresh i j m : ~ In i (map fst m) -> ~ In j (map snd m) -> bm_insert i j m = (i, j) :: m.
Proof using.
  intros Hi Hj. unfold bm_insert. f_equal. induction m as [|[i' j'] m IH]; [reflexivity|]. cbn in *.
  destruct (Nat.eqb_spec i' i) as [->|]; [tauto|]. destruct (Nat.eqb_spec j' j) as [->|]; [tauto|]. cbn. f_equal. apply IH; tauto.
Qed.

Definition pairs_ok (a b : list T) (m : bimap) : Prop := Forall (fun p => nth_error a (fst p) = nth_error b (snd p)) m.

Lemma pop_loop b : forall r l pos bm, let a := l ++ r in length a = length b ->
  NoDup (map fst pos) -> positions_ok b pos -> Permutation (spare pos ++ map snd bm) (seq 0 (length b)) ->
  Permutation (spare_values pos ++ l) b -> map fst bm = rev (seq 0 (length l)) -> pairs_ok a b bm ->
  match ofold (fun st iv => match pos_pop eqb (snd iv) (fst st) with
               | Some (j, m') => Ok (m', bm_insert (fst iv) j (snd st))
               | None => Panic
               end) (combine (seq (length l) (length r)) r) (pos, bm) with
  | Ok (_, bm') => Permutation (map snd bm') (seq 0 (length b)) /\ map fst bm' = rev (seq 0 (length a)) /\ pairs_ok a b bm' /\ Permutation a b
  | Panic => ~ Permutation a b
  | NoFuel => False
  end.
Proof using eqb_ok.
  induction r as [|x r IH]; intros l pos bm a La ND PO SP SV FB PB.
  - cbn [length seq combine ofold]. unfold a in *. rewrite app_nil_r in *.
    assert (E : spare_values pos = []).
    { apply Permutation_length in SV. rewrite app_length in SV. destruct (spare_values pos); [reflexivity|cbn in SV; lia]. }
    assert (E' : spare pos = []).
    { apply Permutation_length in SP. rewrite app_length, seq_length, map_length in SP.
      assert (length bm = length l) by (apply (f_equal (@length nat)) in FB; rewrite map_length, rev_length, seq_length in FB; exact FB).
      destruct (spare pos); [reflexivity|cbn in SP; lia]. }
    rewrite E in SV. rewrite E' in SP. auto.
  - cbn [length seq combine ofold fst snd]. pose proof (pos_pop_spec b x pos ND PO) as S.
    destruct (pos_pop eqb x pos) as [[j m']|]; cbn [obind].
    + destruct S as (S1 & S2 & S3 & S4 & S5). specialize (IH (l ++ [x]) m' (bm_insert (length l) j bm)).
      assert (F1 : ~ In (length l) (map fst bm)) by (rewrite FB, <- in_rev, in_seq; lia).
      assert (F2 : ~ In j (map snd bm)).
      { assert (N : NoDup (spare pos ++ map snd bm)) by (eapply Permutation_NoDup; [symmetry; exact SP|apply seq_NoDup]).
        rewrite S4 in N. cbn in N. apply NoDup_cons_iff in N. destruct N as [N _]. rewrite in_app_iff in N. tauto. }
      rewrite (bm_insert_fresh _ _ _ F1 F2) in *. rewrite <- app_assoc, app_length in IH. cbn [app length] in IH. rewrite Nat.add_1_r in IH.
      apply IH; auto.
      * rewrite S1. exact ND.
      * cbn [map snd]. rewrite <- SP, S4. symmetry. apply Permutation_middle.
      * rewrite <- SV, S5. cbn. rewrite app_assoc. symmetry. apply Permutation_cons_append.
      * cbn [map fst]. rewrite FB, seq_S. cbn [plus]. rewrite rev_app_distr. reflexivity.
      * constructor; [|exact PB]. cbn [fst snd]. rewrite S3. rewrite nth_error_app2 by lia. rewrite Nat.sub_diag. reflexivity.
    + intro P. apply S. assert (Q : Permutation (spare_values pos ++ l) ((x :: r) ++ l)).
      { rewrite SV, <- P. apply Permutation_app_comm. }
      apply Permutation_app_inv_r in Q. eapply Permutation_in; [symmetry; exact Q|left; reflexivity].
Qed.

Lemma bm_left_in m i j : NoDup (map fst m) -> In (i, j) m -> bm_left m i = Some j.
Proof using.
  unfold bm_left. induction m as [|[i' j'] m IH]; cbn; [intros _ []|]; intros ND [E|H]; [injection E as -> ->; rewrite Nat.eqb_refl; reflexivity|].
  apply NoDup_cons_iff in ND. destruct ND as [N1 N2]. destruct (Nat.eqb_spec i' i) as [->|]; [|apply IH; auto].
  exfalso. apply N1. apply in_map_iff. exists (i, j). auto.
Qed.
Lemma bm_right_in m i j : NoDup (map snd m) -> In (i, j) m -> bm_right m j = Some i.
Proof using.
  unfold bm_right. induction m as [|[i' j'] m IH]; cbn; [intros _ []|]; intros ND [E|H]; [injection E as -> ->; rewrite Nat.eqb_refl; reflexivity|].
  apply NoDup_cons_iff in ND. destruct ND as [N1 N2]. destruct (Nat.eqb_spec j' j) as [->|]; [|apply IH; auto].
  exfalso. apply N1. apply in_map_iff. exists (i, j). auto.
Qed.

(** A bijection of [0, n) that carries [a] to [b]. *)
Definition matches (a b : list T) (m : bimap) : Prop :=
  (forall i, i < length a -> exists j, j < length a /\ bm_left m i = Some j /\ bm_right m j = Some i /\ nth_error a i = nth_error b j) /\
  (forall j, j < length a -> exists i, i < length a /\ bm_left m i = Some j /\ bm_right m j = Some i /\ nth_error a i = nth_error b j).

Lemma bimap_from_lists_spec a b :
  (Permutation a b -> exists m, bimap_from_lists eqb a b = Ok m /\ matches a b m /\ length m = length a) /\
  (~ Permutation a b -> bimap_from_lists eqb a b = Panic).
Proof using eqb_ok.
  unfold bimap_from_lists. destruct (Nat.eqb_spec (length a) (length b)) as [L|L]; cbn [oassert obind].
  2:{ split; [|reflexivity]. intro P. apply Permutation_length in P. contradiction. }
  destruct (positions_spec b) as (P1 & P2 & P3 & P4).
  pose proof (pop_loop b a [] _ [] L P1 P2) as H. cbn [app length map] in H. rewrite !app_nil_r in H.
  specialize (H P3 P4 eq_refl (Forall_nil _)). unfold enumerate at 1 3.
  destruct (ofold _ _ _) as [[m' bm]| |]; cbn [obind snd].
  - destruct H as (H1 & H2 & H3 & H4). split; [intros _|intro N; contradiction].
    assert (N1 : NoDup (map fst bm)) by (rewrite H2; apply NoDup_rev, seq_NoDup).
    assert (N2 : NoDup (map snd bm)) by (eapply Permutation_NoDup; [symmetry; exact H1|apply seq_NoDup]).
    unfold pairs_ok in H3. rewrite Forall_forall in H3.
    exists bm. split; [reflexivity|]. split; [|rewrite <- (map_length fst), H2, rev_length, seq_length; reflexivity]. split.
    + intros i Hi. assert (I : In i (map fst bm)) by (rewrite H2, <- in_rev, in_seq; lia).
      apply in_map_iff in I. destruct I as ([i' j] & E & I). cbn in E. subst i'. exists j.
      split; [|split; [apply bm_left_in; assumption|split; [apply bm_right_in; assumption|exact (H3 _ I)]]].
      assert (J : In j (seq 0 (length b))) by (eapply Permutation_in; [exact H1|apply in_map_iff; exists (i, j); auto]). apply in_seq in J. lia.
    + intros j Hj. assert (I : In j (map snd bm)) by (eapply Permutation_in; [symmetry; exact H1|apply in_seq; lia]).
      apply in_map_iff in I. destruct I as ([i j'] & E & I). cbn in E. subst j'. exists i.
      split; [|split; [apply bm_left_in; assumption|split; [apply bm_right_in; assumption|exact (H3 _ I)]]].
      assert (J : In i (map fst bm)) by (apply in_map_iff; exists (i, j); auto). rewrite H2, <- in_rev, in_seq in J. lia.
  - split; [intro P; contradiction|reflexivity].
  - destruct H.
Qed.
End Bimap.
