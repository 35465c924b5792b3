(** How many passes over the generators an execution makes: ranks of generators through the builder calls. *)
From Coq Require Import ZArith List Bool Arith Lia Permutation.
From Verif Require Import Base FieldM FieldP ExprM BuilderM GadgetsM CryptoM WaksmanM CurveM Spec ExprP BitsP MonoP LocalP SoundP HonestP ExecP CoreP
  BimapP RouteP SettleP WaksmanP CryptoP MatrixP SpongeP CmpCompleteP SortP RefuseP DetP.
Import ListNotations.
Open Scope nat_scope.

(** When the generator succeeds, the wires [o] have values, and so have those that had one before. *)
Definition yields (o : list nat) (run : values -> outcome values) : Prop :=
  (forall v, run v <> NoFuel) /\ forall v v', run v = Ok v' -> (forall k, m_get k v <> None -> m_get k v' <> None) /\ forall k, In k o -> m_get k v' <> None.

(** A generator, wires it sets, and its rank. *)
Record item := mkI { it_gen : wgen; it_out : list nat; it_rank : nat }.
(** With the wires [K] known, an item reads only known wires, outputs of items of lower rank, and outputs of items of the same rank before it. *)
Definition ranked (K : nat -> Prop) (k : nat) (R : list item) : Prop := forall i x, nth_error R i = Some x -> it_rank x <= k /\
  forall d, In d (g_inputs (it_gen x)) -> K d \/ exists j y, nth_error R j = Some y /\ In d (it_out y) /\ (it_rank y < it_rank x \/ it_rank y = it_rank x /\ j < i).
Definition yielding (R : list item) : Prop := Forall (fun x => yields (it_out x) (g_run (it_gen x))) R.
(** What the items of rank 0 set. *)
Definition firsts (R : list item) : list nat := flat_map (fun x => if it_rank x =? 0 then it_out x else []) R.
Definition shift (s : nat) (x : item) : item := mkI (it_gen x) (it_out x) (it_rank x + s).

(** ** Execution of ranked generators *)
Section Exec.
Context {F : Field}.
Variables (K : nat -> Prop) (k : nat) (R : list item).
Hypotheses (HR : ranked K k R) (HY : yielding R).

Definition knows (v : values) (d : nat) : Prop := m_get d v <> None.
Definition done (v : values) (x : item) : Prop := forall d, In d (it_out x) -> knows v d.
(** Pending items with their positions. *)
Definition placed (P : list (nat * item)) : Prop := Forall (fun p => nth_error R (fst p) = Some (snd p)) P.
Fixpoint increasing (P : list (nat * item)) : Prop := match P with [] => True | p :: P' => Forall (fun q => fst p < fst q) P' /\ increasing P' end.
Definition gens (P : list (nat * item)) : list wgen := map (fun p => it_gen (snd p)) P.

(** In the pass number [p]: items of rank at most [p] that are not in [P] have run; [acc] are those kept so far. *)
Lemma tick_pass p : forall P acc v, placed P -> increasing P ->
  (forall q x, In q acc -> In x P -> fst q < fst x) -> Forall (fun q => p < it_rank (snd q)) acc ->
  (forall d, K d -> knows v d) -> (forall j y, nth_error R j = Some y -> In (j, y) (acc ++ P) \/ done v y) -> Forall (fun q => p <= it_rank (snd q)) P ->
  exec_pass (gens P) v = Panic \/ exists P' v' pr, exec_pass (gens P) v = Ok (gens P', v', pr) /\ placed P' /\ increasing P' /\ incl P' P /\
    Forall (fun q => p < it_rank (snd q)) P' /\ (forall d, knows v d -> knows v' d) /\ (forall j y, nth_error R j = Some y -> In (j, y) (acc ++ P') \/ done v' y) /\
    (pr = false -> P' = P /\ v' = v).
Proof using HR HY.
  induction P as [|[i x] P IH]; intros acc v HP HI HA Hacc HK HD HP2; cbn [gens map exec_pass snd].
  - right. exists [], v, false. repeat split; auto; try constructor. apply incl_refl.
  - fold (gens P). inversion HP as [|? ? Hix HP']; subst. destruct HI as [HI1 HI2]. inversion HP2 as [|? ? Hr HP2']; subst. cbn [fst snd] in *.
    pose proof HY as HY'. unfold yielding in HY'. rewrite Forall_forall in HY'. pose proof (HY' x (nth_error_In _ _ Hix)) as [NF Y].
    assert (RUN : v_contains_all v (g_inputs (it_gen x)) = true \/ p < it_rank x).
    { destruct (Nat.eq_dec (it_rank x) p) as [Er|]; [|right; lia]. left. apply contains_all_available. intros d Hd.
      destruct (proj2 (HR i x Hix) d Hd) as [Kd|(j & y & Hj & Hy & Hlt)]; [exact (HK d Kd)|].
      destruct (HD j y Hj) as [I|I]; [|exact (I d Hy)]. exfalso. apply in_app_or in I. destruct I as [I|[I|I]].
      - rewrite Forall_forall in Hacc. specialize (Hacc _ I). cbn [snd] in Hacc. lia.
      - inversion I; subst. lia.
      - rewrite Forall_forall in HI1, HP2'. specialize (HI1 _ I). specialize (HP2' _ I). cbn [fst snd] in *. lia. }
    destruct (v_contains_all v (g_inputs (it_gen x))) eqn:C.
    + destruct (g_run (it_gen x) v) as [v1| |] eqn:E; cbn [obind]; [|left; reflexivity|exfalso; exact (NF v E)].
      destruct (Y _ _ E) as [Y1 Y2].
      assert (A1 : forall q z, In q acc -> In z P -> fst q < fst z) by (intros q z Hq Hz; apply HA; [exact Hq|right; exact Hz]).
      assert (A2 : forall d, K d -> knows v1 d) by (intros d Kd; apply Y1, HK, Kd).
      assert (A3 : forall j y, nth_error R j = Some y -> In (j, y) (acc ++ P) \/ done v1 y).
      { intros j y Hj. destruct (HD j y Hj) as [I|I]; [|right; intros d Hd; apply Y1, I, Hd]. apply in_app_or in I. destruct I as [I|[I|I]]; [left; apply in_or_app; auto| |left; apply in_or_app; auto].
        inversion I; subst. right. exact Y2. }
      destruct (IH acc v1 HP' HI2 A1 Hacc A2 A3 HP2') as [->|(P' & v' & pr & -> & Q1 & Q2 & Q3 & Q4 & Q5 & Q6 & Q7)]; [left; reflexivity|].
      right. exists P', v', true. cbn [obind]. split; [reflexivity|]. split; [exact Q1|]. split; [exact Q2|]. split; [intros q Hq; right; apply Q3, Hq|].
      split; [exact Q4|]. split; [intros d Hd; apply Q5, Y1, Hd|]. split; [exact Q6|discriminate].
    + destruct RUN as [RUN|RUN]; [discriminate|].
      assert (A1 : forall q z, In q (acc ++ [(i, x)]) -> In z P -> fst q < fst z).
      { intros q z Hq Hz. apply in_app_or in Hq. destruct Hq as [Hq|[<-|[]]]; [apply HA; [exact Hq|right; exact Hz]|]. rewrite Forall_forall in HI1. apply HI1, Hz. }
      assert (A2 : Forall (fun q => p < it_rank (snd q)) (acc ++ [(i, x)])) by (apply Forall_app; split; [exact Hacc|]; constructor; [exact RUN|constructor]).
      assert (A3 : forall j y, nth_error R j = Some y -> In (j, y) ((acc ++ [(i, x)]) ++ P) \/ done v y) by (intros j y Hj; rewrite <- app_assoc; apply HD, Hj).
      destruct (IH _ v HP' HI2 A1 A2 HK A3 HP2') as [->|(P' & v' & pr & -> & Q1 & Q2 & Q3 & Q4 & Q5 & Q6 & Q7)]; [left; reflexivity|].
      right. exists ((i, x) :: P'), v', pr. cbn [obind]. split; [reflexivity|]. split; [constructor; assumption|]. split.
      { split; [|exact Q2]. apply Forall_forall. intros q Hq. rewrite Forall_forall in HI1. apply HI1, Q3, Hq. }
      split; [intros q [<-|Hq]; [left; reflexivity|right; apply Q3, Hq]|]. split; [constructor; assumption|]. split; [exact Q5|]. split.
      { intros j y Hj. specialize (Q6 j y Hj). rewrite <- app_assoc in Q6. exact Q6. }
      intro Ep. destruct (Q7 Ep) as [-> ->]. auto.
Qed.
Lemma tick_loop : forall n p P v, n + p = S k -> placed P -> increasing P -> (forall d, K d -> knows v d) ->
  (forall j y, nth_error R j = Some y -> In (j, y) P \/ done v y) -> Forall (fun q => p <= it_rank (snd q)) P ->
  exec_loop n (gens P) v = Panic \/ exists v', exec_loop (S n) (gens P) v = Ok ([], v') /\ (forall d, knows v d -> knows v' d) /\ forall x, In x R -> done v' x.
Proof using HR HY.
  induction n as [|n IH]; intros p P v E HP HI HK HD HL.
  - assert (P = []) as ->.
    { destruct P as [|[i x] P]; [reflexivity|]. exfalso. inversion HP; subst. inversion HL; subst. cbn [fst snd] in *. destruct (HR i x) as [L _]; [assumption|]. lia. }
    right. exists v. cbn. split; [reflexivity|]. split; [auto|]. intros x Hx. apply In_nth_error in Hx. destruct Hx as [j Hj]. destruct (HD j x Hj) as [[]|D]; exact D.
  - change (exec_loop (S (S n)) (gens P) v) with (let! '(kept, v1, progress) := exec_pass (gens P) v in if progress : bool then exec_loop (S n) kept v1 else Ok (kept, v1)).
    change (exec_loop (S n) (gens P) v) with (let! '(kept, v1, progress) := exec_pass (gens P) v in if progress : bool then exec_loop n kept v1 else Ok (kept, v1)) at 1.
    destruct (tick_pass p P [] v HP HI (fun q x (H : In q []) => match H with end) (Forall_nil _) HK HD HL) as [->|(P' & v' & pr & EP & Q1 & Q2 & Q3 & Q4 & Q5 & Q6 & Q7)]; [left; reflexivity|].
    cbn [app] in Q6. rewrite EP. cbn [obind]. destruct pr.
    + assert (A : forall d, K d -> knows v' d) by (intros d Kd; apply Q5, HK, Kd).
      destruct (IH (S p) P' v' ltac:(lia) Q1 Q2 A Q6 Q4) as [->|(v2 & -> & S1 & S2)]; [left; reflexivity|]. right. exists v2. auto.
    + destruct (Q7 eq_refl) as [-> ->]. destruct (IH (S p) P v ltac:(lia) HP HI HK HD Q4) as [B|(v2 & B & S1 & S2)].
      * exfalso. destruct n; cbn [exec_loop] in B; [discriminate B|]. rewrite EP in B. discriminate B.
      * cbn [exec_loop] in B. rewrite EP in B. right. exists v2. auto.
Qed.
Lemma increasing_from : forall l s, increasing (combine (seq s (length l)) l) /\ Forall (fun q => s <= fst q) (combine (seq s (length l)) l).
Proof using.
  induction l as [|x l IH]; intro s; cbn; [split; [exact I|constructor]|]. destruct (IH (S s)) as [I1 I2]. split; [split; [|exact I1]|constructor; [cbn; lia|]];
  (eapply Forall_impl; [|exact I2]); cbv beta; intros; cbn [fst]; lia.
Qed.
Lemma placed_all : let P := combine (seq 0 (length R)) R in
  gens P = map it_gen R /\ placed P /\ increasing P /\ (forall j y, nth_error R j = Some y -> In (j, y) P) /\ Forall (fun q => 0 <= it_rank (snd q)) P.
Proof using.
  intro P.
  assert (EG : gens P = map it_gen R).
  { unfold gens, P. rewrite <- (map_map snd it_gen). f_equal. assert (X : forall (l : list item) s, map snd (combine (seq s (length l)) l) = l); [|apply X].
    induction l as [|x l IH]; intro s; cbn; [reflexivity|]. f_equal. apply IH. }
  assert (G : forall (l : list item) s, (forall i x, In (i, x) (combine (seq s (length l)) l) <-> s <= i /\ nth_error l (i - s) = Some x)).
  { induction l as [|y l IH]; intros s i x; cbn; [split; [intros []|intros [_ H]; destruct (i - s); discriminate]|]. rewrite (IH (S s) i x). split.
    - intros [E|[L E]]; [inversion E; subst; rewrite Nat.sub_diag; split; [lia|reflexivity]|]. split; [lia|]. replace (i - s) with (S (i - S s)) by lia. exact E.
    - intros [L E]. destruct (Nat.eq_dec i s) as [->|N]; [rewrite Nat.sub_diag in E; inversion E; left; reflexivity|]. right. split; [lia|].
      replace (i - s) with (S (i - S s)) in E by lia. exact E. }
  split; [exact EG|]. split; [|split; [|split]].
  - apply Forall_forall. intros [i x] Hi. apply G in Hi. rewrite Nat.sub_0_r in Hi. apply Hi.
  - apply increasing_from.
  - intros j y Hj. apply G. rewrite Nat.sub_0_r. split; [lia|exact Hj].
  - apply Forall_forall. intros; lia.
Qed.
Lemma tick_exec v : (forall d, K d -> knows v d) -> exec_loop (S k) (map it_gen R) v = Panic \/
  exists v', exec_loop (S (S k)) (map it_gen R) v = Ok ([], v') /\ (forall d, knows v d -> knows v' d) /\ forall x, In x R -> done v' x.
Proof using HR HY.
  intro HK. destruct placed_all as (EG & H1 & H2 & H3 & H4). rewrite <- EG. apply (tick_loop (S k) 0 _ v); auto.
Qed.
(** The first pass runs the items of rank 0. *)
Lemma tick_first v gs v' pr : (forall d, K d -> knows v d) -> exec_pass (map it_gen R) v = Ok (gs, v', pr) -> forall d, K d \/ In d (firsts R) -> knows v' d.
Proof using HR HY.
  intros HK E. destruct placed_all as (EG & H1 & H2 & H3 & H4). rewrite <- EG in E.
  destruct (tick_pass 0 _ [] v H1 H2 (fun q x (H : In q []) => match H with end) (Forall_nil _) HK (fun j y Hj => or_introl (H3 j y Hj)) H4)
    as [E'|(P' & v1 & pr1 & E' & _ & _ & _ & Q4 & Q5 & Q6 & _)]; rewrite E in E'; [discriminate E'|]. inversion E'; subst. cbn [app] in Q6.
  intros d [Hd|Hd]; [apply Q5, HK, Hd|]. unfold firsts in Hd. apply in_flat_map in Hd. destruct Hd as (x & Hx & Hd). destruct (Nat.eqb_spec (it_rank x) 0) as [R0|]; [|destruct Hd].
  apply In_nth_error in Hx. destruct Hx as [j Hj]. destruct (Q6 j x Hj) as [I|I]; [|exact (I d Hd)]. rewrite Forall_forall in Q4. specialize (Q4 _ I). cbn [snd] in Q4. lia.
Qed.
End Exec.

(** ** Ranks compose *)
Section Ranks.
Lemma ranked_weaken (K K' : nat -> Prop) k k' R : ranked K k R -> (forall d, K d -> K' d) -> k <= k' -> ranked K' k' R.
Proof. intros H HK L i x Hi. destruct (H i x Hi) as [H1 H2]. split; [lia|]. intros d Hd. destruct (H2 d Hd) as [A|A]; auto. Qed.
Lemma ranked_nil K k : ranked K k [].
Proof. intros [|i] x H; discriminate. Qed.
Lemma in_firsts R d : In d (firsts R) <-> exists j y, nth_error R j = Some y /\ In d (it_out y) /\ it_rank y = 0.
Proof.
  unfold firsts. rewrite in_flat_map. split.
  - intros (y & Hy & Hd). apply In_nth_error in Hy. destruct Hy as [j Hj]. destruct (Nat.eqb_spec (it_rank y) 0); [eauto|destruct Hd].
  - intros (j & y & Hj & Hd & E). exists y. split; [exact (nth_error_In _ _ Hj)|]. rewrite E. exact Hd.
Qed.
Lemma firsts_app R1 R2 : firsts (R1 ++ R2) = firsts R1 ++ firsts R2.
Proof. apply flat_map_app. Qed.
Lemma gens_shift s R : map it_gen (map (shift s) R) = map it_gen R.
Proof. rewrite map_map. reflexivity. Qed.
Lemma yielding_shift s R : yielding R -> yielding (map (shift s) R).
Proof. intro H. apply Forall_map. exact H. Qed.
Lemma ranked_shift K k s R : ranked K k R -> ranked K (k + s) (map (shift s) R).
Proof.
  intros H i x Hi. rewrite nth_error_map in Hi. destruct (nth_error R i) as [y|] eqn:E; [|discriminate]. inversion Hi; subst. cbn [shift it_rank it_gen]. destruct (H i y E) as [H1 H2].
  split; [lia|]. intros d Hd. destruct (H2 d Hd) as [A|(j & z & Hj & Hz & L)]; [auto|right]. exists j, (shift s z). rewrite nth_error_map, Hj. cbn [shift it_out it_rank]. repeat split; auto. lia.
Qed.
(** One after the other: the second part may use what the first sets with rank 0. *)
Lemma ranked_seq K k R1 R2 : ranked K k R1 -> ranked (fun d => K d \/ In d (firsts R1)) k R2 -> ranked K k (R1 ++ R2).
Proof.
  intros H1 H2 i x Hi. destruct (Nat.lt_ge_cases i (length R1)) as [L|L].
  - rewrite nth_error_app1 in Hi by exact L. destruct (H1 i x Hi) as [A B]. split; [lia|]. intros d Hd. destruct (B d Hd) as [C|(j & y & Hj & Hy & C)]; [auto|right].
    exists j, y. rewrite nth_error_app1 by (apply nth_error_Some; congruence). auto.
  - rewrite nth_error_app2 in Hi by exact L. destruct (H2 _ _ Hi) as [A B]. split; [lia|]. intros d Hd. destruct (B d Hd) as [[C|C]|(j & z & Hj & Hz & C)]; [auto| |].
    + right. apply in_firsts in C. destruct C as (j & z & Hj & Hz & Rz). assert (Lj : j < length R1) by (apply nth_error_Some; congruence). exists j, z. rewrite nth_error_app1 by exact Lj.
      split; [exact Hj|]. split; [exact Hz|]. lia.
    + right. exists (length R1 + j), z. rewrite nth_error_app2 by lia. replace (length R1 + j - length R1) with j by lia. repeat split; auto. lia.
Qed.
(** A generator registered after those that read what it sets. *)
Lemma ranked_late K k R g o : ranked (fun d => K d \/ In d o) k R -> (forall d, In d (g_inputs g) -> K d) -> ranked K (S k) (map (shift 1) R ++ [mkI g o 0]).
Proof.
  intros H Hg i x Hi. destruct (Nat.lt_ge_cases i (length R)) as [L|L].
  - rewrite nth_error_app1 in Hi by (rewrite map_length; exact L). rewrite nth_error_map in Hi. destruct (nth_error R i) as [y|] eqn:E; [|discriminate]. inversion Hi; subst.
    cbn [shift it_rank it_gen]. destruct (H _ _ E) as [A B]. split; [lia|]. intros d Hd. destruct (B d Hd) as [[C|C]|(j & z & Hj & Hz & C)]; [auto| |].
    + right. exists (length R), (mkI g o 0). rewrite nth_error_app2 by (rewrite map_length; lia). rewrite map_length, Nat.sub_diag. cbn. repeat split; auto. lia.
    + right. exists j, (shift 1 z). rewrite nth_error_app1 by (rewrite map_length; apply nth_error_Some; congruence). rewrite nth_error_map, Hj. cbn [shift it_out it_rank]. repeat split; auto. lia.
  - rewrite nth_error_app2 in Hi by (rewrite map_length; exact L). destruct (i - length (map (shift 1) R)) as [|n]; [|destruct n; discriminate]. inversion Hi; subst. cbn. split; [lia|]. auto.
Qed.
End Ranks.

(** ** The generators *)
Section Yields.
Context {F : Field}.
Lemma writes_yields deps o run : writes deps o run -> stops_on o run -> yields o run.
Proof.
  intros (S & NF & _) T. split; [exact NF|]. intros v v' E. destruct (T v v' E) as [U ND]. specialize (S ND v v (fun k _ => eq_refl) U U). rewrite E in S. destruct S as [S1 S2]. split.
  - intros k Hk. destruct (in_dec Nat.eq_dec k o) as [I|I]; [apply S1, I|]. destruct (S2 k I) as [X _]. congruence.
  - intros k Hk. apply S1, Hk.
Qed.

(** The router of a permutation network: the scans pass only over switches that have values. *)
Definition passed (sw : list wire * list wire) (v : values) (si : nat * nat) : Prop := forall side j w, j < sel side si -> nth_error (sel side sw) j = Some w -> m_get w v <> None.
Lemma passed_keeps sw v v' si : passed sw v si -> keeps v v' -> passed sw v' si.
Proof. intros H K side j w Hj Hw. specialize (H side j w Hj Hw). destruct (m_get w v) as [x|] eqn:E; [|congruence]. rewrite (K w x E). discriminate. Qed.
Lemma scan_passed v ws : forall steps k j w, k <= j < scan steps v ws k -> nth_error ws j = Some w -> m_get w v <> None.
Proof.
  induction steps as [|n IH]; intros k j w Hj Hw; cbn [scan] in Hj; [lia|]. destruct (nth_error ws k) as [u|] eqn:Ek; [|lia].
  destruct (v_contains v u) eqn:C; [|lia]. destruct (Nat.eq_dec j k) as [->|N].
  - rewrite Ek in Hw. inversion Hw; subst. unfold v_contains, m_mem in C. destruct (m_get w v); congruence.
  - apply (IH (S k) j w); [lia|exact Hw].
Qed.
Lemma side_passed sw bm s side s' : route_side sw bm s side = Ok s' -> passed sw (snd (fst s)) (snd s) -> keeps (snd (fst s)) (snd (fst s')) /\ passed sw (snd (fst s')) (snd s').
Proof.
  unfold route_side. destruct s as [[pr v] si]. cbn [fst snd]. intros E HP. destruct (sel side pr) as [|e l] eqn:Ep.
  - set (k := scan _ _ _ _) in *.
    assert (HK : passed sw v (WaksmanM.upd side k si)).
    { intros side' j w Hj Hw. destruct (Bool.bool_dec side' side) as [->|N].
      - replace (sel side (WaksmanM.upd side k si)) with k in Hj by (destruct side, si; reflexivity).
        destruct (Nat.lt_ge_cases j (sel side si)) as [L|L]; [exact (HP side j w L Hw)|]. exact (scan_passed v _ _ _ j w (conj L Hj) Hw).
      - replace (sel side' (WaksmanM.upd side k si)) with (sel side' si) in Hj by (destruct side, side', si; cbn; congruence). exact (HP side' j w Hj Hw). }
    destruct (k <? length (sel side sw)) eqn:C.
    + apply obind_ok in E. destruct E as ([pr' v'] & E1 & E). inversion E; subst. cbn [fst snd]. pose proof (route_switch_keeps _ _ _ _ _ _ _ E1) as K. cbn [snd] in K.
      split; [exact K|]. intros side' j w Hj Hw. pose proof (passed_keeps _ _ _ _ HK K) as HK'. destruct (Nat.eq_dec j k) as [->|N].
      * destruct (Bool.bool_dec side' side) as [->|N].
        -- unfold route_switch in E1. apply obind_ok in E1. destruct E1 as (u & Eu & E1). apply obind_ok in E1. destruct E1 as (v1 & E1 & E2).
           apply obind_ok in E2. destruct E2 as (p1 & _ & E2). apply obind_ok in E2. destruct E2 as (p2 & _ & E2). inversion E2; subst.
           unfold oindex, ounwrap in Eu. rewrite Hw in Eu. inversion Eu; subst. destruct (set_step _ _ _ _ E1) as (_ & S1 & _). exact S1.
        -- apply (HK' side' k w); [|exact Hw]. destruct side, side', si; cbn in *; congruence.
      * apply (HK' side' j w); [|exact Hw]. destruct side, side', si; cbn [sel WaksmanM.upd fst snd] in *; lia.
    + inversion E; subst. cbn [fst snd]. split; [intros w x H; exact H|exact HK].
  - apply obind_ok in E. destruct E as ([pr' v'] & E1 & E). inversion E; subst. cbn [fst snd]. pose proof (route_fold_keeps _ _ _ _ _ _ _ _ E1) as K. cbn [snd] in K.
    split; [exact K|]. exact (passed_keeps _ _ _ _ HP K).
Qed.
Lemma loop_passed sw bm : forall fuel s v', route_loop sw bm fuel s = Ok v' -> passed sw (snd (fst s)) (snd s) ->
  keeps (snd (fst s)) v' /\ forall w, In w (fst sw ++ snd sw) -> m_get w v' <> None.
Proof.
  induction fuel as [|f IH]; intros s v' E HP; [discriminate|]. cbn [route_loop] in E. destruct s as [[pr v] si] eqn:Es. destruct (_ || _) eqn:C.
  - rewrite <- Es in *. apply obind_ok in E. destruct E as (s1 & E1 & E). apply obind_ok in E. destruct E as (s2 & E2 & E).
    destruct (side_passed _ _ _ _ _ E1 HP) as [K1 P1]. destruct (side_passed _ _ _ _ _ E2 P1) as [K2 P2]. destruct (IH _ _ E P2) as [K3 D]. split; [|exact D].
    intros w x H. apply K3, K2, K1, H.
  - inversion E; subst. cbn [fst snd] in *. split; [intros w x H; exact H|]. apply orb_false_elim in C. destruct C as [C1 C2]. apply Nat.ltb_ge in C1, C2.
    intros w Hw. apply in_app_or in Hw. destruct Hw as [Hw|Hw]; apply In_nth_error in Hw; destruct Hw as [j Hj]; pose proof (proj1 (nth_error_Some _ j) ltac:(rewrite Hj; discriminate)) as L.
    + apply (HP false j w); cbn [sel]; [lia|exact Hj].
    + apply (HP true j w); cbn [sel]; [lia|exact Hj].
Qed.
Lemma route_sets av bv sa sb v v' : route av bv sa sb v = Ok v' -> keeps v v' /\ forall w, In w (sa ++ sb) -> m_get w v' <> None.
Proof.
  unfold route. intro E. do 4 (apply obind_ok in E; destruct E as (? & _ & E)). apply loop_passed in E; [exact E|]. intros [] j w Hj; cbn in Hj; lia.
Qed.
Lemma yields_of deps o run : writes deps o run -> yields o run.
Proof.
  intros W. pose proof W as (_ & NF & [T|(a & b & sa & sb & _ & _ & -> & _ & H)]); [exact (writes_yields _ _ _ W T)|].
  split; [exact NF|]. intros v v' E. rewrite H in E. apply obind_ok in E. destruct E as (av & _ & E). apply obind_ok in E. destruct E as (bv & _ & E).
  destruct (route_sets _ _ _ _ _ _ E) as [K D]. split; [|exact D]. intros k Hk. destruct (m_get k v) as [x|] eqn:Ek; [|congruence]. rewrite (K k x Ek). discriminate.
Qed.
End Yields.

(** ** Lags of builder calls *)
Definition sub (K K' : nat -> Prop) : Prop := forall d, K d -> K' d.
Lemma sub_refl K : sub K K.
Proof. intros d H. exact H. Qed.
Lemma sub_trans K1 K2 K3 : sub K1 K2 -> sub K2 K3 -> sub K1 K3.
Proof. intros H1 H2 d H. apply H2, H1, H. Qed.

Section Lag.
Context {F : Field}.

(** With the wires [K] known beforehand, and those in [O] promised, the new generators get ranks at most [k]; afterwards the wires [K'] are known, set by
    generators of rank 0. *)
Definition tick {A} (K : nat -> Prop) (k : nat) (m : B A) (Q : (nat -> Prop) -> A -> list nat -> Prop) : Prop := K ONE -> forall b a b', m b = Ok (a, b') ->
  exists R K' O, generators b' = generators b ++ map it_gen R /\ yielding R /\ ranked (fun d => K d \/ In d O) k R /\ sub K K' /\
    (forall d, K' d -> K d \/ In d O \/ In d (firsts R)) /\ Q K' a O.
Definition tk {A} (K : nat -> Prop) (k : nat) (m : B A) (Q : (nat -> Prop) -> A -> Prop) : Prop := tick K k m (fun K' a O => O = [] /\ Q K' a).

Lemma tk_pos {A} (K : nat -> Prop) k (m : B A) Q : (K ONE -> tk K k m Q) -> tk K k m Q.
Proof. intros H HK. exact (H HK HK). Qed.
Lemma tick_weaken {A} K k k' (m : B A) (Q Q' : (nat -> Prop) -> A -> list nat -> Prop) : tick K k m Q -> k <= k' -> (forall K' a O, sub K K' -> Q K' a O -> Q' K' a O) -> tick K k' m Q'.
Proof.
  intros H L W HK b a b' E. destruct (H HK b a b' E) as (R & K' & O & G & Y & T & S & C & HQ). exists R, K', O. split; [exact G|]. split; [exact Y|]. split; [apply (ranked_weaken _ _ k k' R T); auto|]. auto.
Qed.
Lemma tk_weaken {A} K k k' (m : B A) (Q Q' : (nat -> Prop) -> A -> Prop) : tk K k m Q -> k <= k' -> (forall K' a, sub K K' -> Q K' a -> Q' K' a) -> tk K k' m Q'.
Proof. intros H L W. apply (tick_weaken K k k' m _ _ H L). cbv beta. intros K' a O S [-> HQ]. auto. Qed.
Lemma tick_silent {A} K k (m : B A) (Q : (nat -> Prop) -> A -> list nat -> Prop) : (forall b a b', m b = Ok (a, b') -> generators b' = generators b /\ exists K' O, sub K K' /\ (forall d, K' d -> K d \/ In d O) /\ Q K' a O) -> tick K k m Q.
Proof.
  intros H HK b a b' E. destruct (H b a b' E) as (G & K' & O & S & C & HQ). exists [], K', O. cbn [map]. rewrite app_nil_r. split; [exact G|]. split; [constructor|]. split; [apply ranked_nil|].
  split; [exact S|]. split; [|exact HQ]. intros d Hd. destruct (C d Hd); auto.
Qed.
Lemma tk_silent {A} K k (m : B A) (Q : (nat -> Prop) -> A -> Prop) : (forall b a b', m b = Ok (a, b') -> generators b' = generators b /\ Q K a) -> tk K k m Q.
Proof. intro H. apply tick_silent. intros b a b' E. destruct (H b a b' E) as [G HQ]. split; [exact G|]. exists K, []. split; [apply sub_refl|]. split; [auto|]. split; [reflexivity|exact HQ]. Qed.
Lemma tk_ret {A} K k (a : A) (Q : (nat -> Prop) -> A -> Prop) : (forall K', sub K K' -> Q K' a) -> tk K k (bret a) Q.
Proof. intro H. apply tk_silent. intros b x b' E. inversion E; subst. split; [reflexivity|]. apply H, sub_refl. Qed.
Lemma tk_lift {A} K k (o : outcome A) (Q : (nat -> Prop) -> A -> Prop) : (forall K' a, sub K K' -> o = Ok a -> Q K' a) -> tk K k (blift o) Q.
Proof. intro H. apply tk_silent. intros b x b' E. unfold blift in E. destruct o; inversion E; subst. split; [reflexivity|]. apply H; [apply sub_refl|reflexivity]. Qed.
Lemma tick_bind {A C} K k (m : B A) (f : A -> B C) Q1 Q2 : tick K k m Q1 ->
  (forall (K' : nat -> Prop) a O, K' ONE -> sub K K' -> Q1 K' a O -> tick K' k (f a) (fun K'' c O2 => Q2 K'' c (O ++ O2))) -> tick K k (bbind m f) Q2.
Proof.
  intros H1 H2 HK b c b' E. unfold bbind in E. destruct (m b) as [[a b1]| |] eqn:E1; try discriminate.
  destruct (H1 HK _ _ _ E1) as (R1 & K1 & O1 & G1 & Y1 & T1 & S1 & C1 & HQ1). pose proof (S1 _ HK) as HK1.
  destruct (H2 K1 a O1 HK1 S1 HQ1 HK1 _ _ _ E) as (R2 & K2 & O2 & G2 & Y2 & T2 & S2 & C2 & HQ2).
  exists (R1 ++ R2), K2, (O1 ++ O2). split; [rewrite G2, G1, map_app, app_assoc; reflexivity|].
  split; [apply Forall_app; split; [exact Y1|exact Y2]|]. split; [|split; [exact (sub_trans _ _ _ S1 S2)|split; [|exact HQ2]]].
  - apply ranked_seq.
    + apply (ranked_weaken _ _ k k R1 T1); [|lia]. intros d [D|D]; [auto|right; apply in_or_app; auto].
    + apply (ranked_weaken _ _ k k R2 T2); [|lia]. intros d [D|D]; [|left; right; apply in_or_app; auto]. destruct (C1 d D) as [X|[X|X]]; [auto| |auto]. left; right; apply in_or_app; auto.
  - intros d Hd. rewrite firsts_app. destruct (C2 d Hd) as [X|[X|X]].
    + destruct (C1 d X) as [X'|[X'|X']]; [auto| |]; right; [left|right]; apply in_or_app; auto.
    + right. left. apply in_or_app. auto.
    + right. right. apply in_or_app. auto.
Qed.
Lemma tk_bind {A C} K k (m : B A) (f : A -> B C) Q1 Q2 : tk K k m Q1 -> (forall (K' : nat -> Prop) a, K' ONE -> sub K K' -> Q1 K' a -> tk K' k (f a) Q2) -> tk K k (bbind m f) Q2.
Proof. intros H1 H2. eapply tick_bind; [exact H1|]. cbv beta. intros K' a O HK S [-> HQ]. cbn [app]. apply H2; assumption. Qed.
(** a call that is not delayed *)
Lemma tk_0 {A} K k (m : B A) Q : tk K 0 m Q -> tk K k m Q.
Proof. intro H. apply (tk_weaken K 0 k m Q Q H); [lia|auto]. Qed.
Lemma tk_bmap {A C} K k (f : A -> B C) l (Q : (nat -> Prop) -> C -> Prop) : (forall K1 K2 c, sub K1 K2 -> Q K1 c -> Q K2 c) ->
  (forall (K' : nat -> Prop) a, K' ONE -> sub K K' -> In a l -> tk K' k (f a) Q) -> tk K k (bmap f l) (fun K' cs => Forall (Q K') cs).
Proof.
  intro M. revert K. induction l as [|a l IH]; intros K H; cbn [bmap]; [apply tk_ret; constructor|].
  apply tk_pos. intro HK. eapply tk_bind; [apply H; [exact HK|apply sub_refl|left; reflexivity]|]. cbv beta. intros K1 c P1 S1 Hc.
  eapply tk_bind; [apply IH; intros K' a' P' S' Ha; apply H; [exact P'|exact (sub_trans _ _ _ S1 S')|right; exact Ha]|]. cbv beta. intros K2 cs _ S2 Hcs. apply tk_ret. intros K3 S3.
  constructor; [exact (M _ _ _ (sub_trans _ _ _ S2 S3) Hc)|]. eapply Forall_impl; [|exact Hcs]. intro. apply M, S3.
Qed.
Lemma tk_bfold {A T} k (f : T -> A -> B T) l (I : (nat -> Prop) -> T -> Prop) : (forall K1 K2 s, sub K1 K2 -> I K1 s -> I K2 s) ->
  forall K, (forall (K' : nat -> Prop) s a, K' ONE -> sub K K' -> In a l -> I K' s -> tk K' k (f s a) I) -> forall s, I K s -> tk K k (bfold f l s) I.
Proof.
  intros M. induction l as [|a l IH]; intros K H s Hs; cbn [bfold length]; [apply tk_ret; intros; eapply M; eauto|].
  apply tk_pos. intro HK. eapply tk_bind; [apply H; [exact HK|apply sub_refl|left; reflexivity|exact Hs]|].
  cbv beta. intros K1 s1 P1 S1 Hs1. apply IH; [|exact Hs1]. intros K' s' a' P S' Ha. apply H; [exact P|exact (sub_trans _ _ _ S1 S')|right; exact Ha].
Qed.
Lemma tk_generator (K : nat -> Prop) k deps o run : (forall d, In d deps -> K d) -> writes deps o run -> tk K k (b_generator deps run) (fun K' _ => forall d, In d o -> K' d).
Proof.
  intros HD W HK b a b' E. inversion E; subst. cbn [generators]. exists [mkI (mkG deps run) o 0], (fun d => K d \/ In d o), []. split; [reflexivity|].
  split; [constructor; [exact (yields_of _ _ _ W)|constructor]|]. split.
  - intros i x Hi. destruct i as [|i]; [|destruct i; discriminate]. inversion Hi; subst. cbn. split; [lia|]. auto.
  - split; [intros d Hd; auto|]. split; [intros d [Hd|Hd]; [auto|]; right; right; unfold firsts; cbn; rewrite app_nil_r; exact Hd|]. split; [reflexivity|]. auto.
Qed.

(** A call that ends with a generator for the wires promised since [K0]; of its results, only those over [K0] and these wires are known early. *)
Definition late {A} (K0 K : nat -> Prop) (k : nat) (O : list nat) (m : B A) (Q : (nat -> Prop) -> A -> Prop) : Prop := K ONE -> forall b a b', m b = Ok (a, b') ->
  exists R g o, generators b' = generators b ++ map it_gen R ++ [g] /\ yielding R /\ yields o (g_run g) /\ (forall d, In d (g_inputs g) -> K0 d) /\ incl O o /\
    ranked (fun d => K d \/ In d o) k R /\ Q (fun d => K0 d \/ In d o) a.
Lemma late_bind {A C} K0 K k O (m : B A) (f : A -> B C) Q1 Q : tick K k m Q1 ->
  (forall (K' : nat -> Prop) a O1, K' ONE -> sub K K' -> Q1 K' a O1 -> late K0 K' k (O1 ++ O) (f a) Q) -> late K0 K k O (bbind m f) Q.
Proof.
  intros H1 H2 HK b c b' E. unfold bbind in E. destruct (m b) as [[a b1]| |] eqn:E1; try discriminate.
  destruct (H1 HK _ _ _ E1) as (R1 & K1 & O1 & G1 & Y1 & T1 & S1 & C1 & HQ1). pose proof (S1 _ HK) as HK1.
  destruct (H2 K1 a O1 HK1 S1 HQ1 HK1 _ _ _ E) as (R2 & g & o & G2 & Y2 & Yg & Dg & I & T2 & HQ2).
  exists (R1 ++ R2), g, o. split; [rewrite G2, G1, map_app, !app_assoc; reflexivity|].
  split; [apply Forall_app; split; [exact Y1|exact Y2]|]. split; [exact Yg|]. split; [exact Dg|]. split; [intros d Hd; apply I, in_or_app; auto|].
  split; [|exact HQ2]. apply ranked_seq.
  - apply (ranked_weaken _ _ k k R1 T1); [|lia]. intros d [D|D]; [auto|right; apply I, in_or_app; auto].
  - apply (ranked_weaken _ _ k k R2 T2); [|lia]. intros d [D|D]; [|auto]. destruct (C1 d D) as [X|[X|X]]; [auto| |auto]. left; right; apply I, in_or_app; auto.
Qed.
Lemma late_call {A C} K0 K k O (m : B A) (f : A -> B C) Q1 Q : tk K k m Q1 ->
  (forall (K' : nat -> Prop) a, K' ONE -> sub K K' -> Q1 K' a -> late K0 K' k O (f a) Q) -> late K0 K k O (bbind m f) Q.
Proof. intros H1 H2. eapply late_bind; [exact H1|]. cbv beta. intros K' a O1 P S [-> HQ]. cbn [app]. apply H2; assumption. Qed.
Lemma late_generator {A} (K0 K : nat -> Prop) k O deps o run (c : A) (Q : (nat -> Prop) -> A -> Prop) : (forall d, In d deps -> K0 d) -> writes deps o run -> incl O o ->
  (forall K', sub K0 K' -> (forall d, In d o -> K' d) -> Q K' c) -> late K0 K k O (bbind (b_generator deps run) (fun _ => bret c)) Q.
Proof.
  intros HD W I HQ HK b a b' E. inversion E; subst. cbn [generators]. exists [], (mkG deps run), o. split; [reflexivity|].
  split; [constructor|]. split; [exact (yields_of _ _ _ W)|]. split; [exact HD|]. split; [exact I|]. split; [apply ranked_nil|]. apply HQ; intros d Hd; auto.
Qed.
Lemma late_generator_unit (K0 K : nat -> Prop) k O deps o run : (forall d, In d deps -> K0 d) -> writes deps o run -> incl O o -> late K0 K k O (b_generator deps run) (fun _ _ => True).
Proof.
  intros HD W I HK b a b' E. inversion E; subst. cbn [generators]. exists [], (mkG deps run), o. split; [reflexivity|].
  split; [constructor|]. split; [exact (yields_of _ _ _ W)|]. split; [exact HD|]. split; [exact I|]. split; [apply ranked_nil|exact Logic.I].
Qed.
Lemma late_close {A} K k (m : B A) Q : late K K k [] m Q -> tk K (S k) m Q.
Proof.
  intros H HK b a b' E. destruct (H HK _ _ _ E) as (R & g & o & G & Y & Yg & Dg & _ & T & HQ).
  exists (map (shift 1) R ++ [mkI g o 0]), (fun d => K d \/ In d o), []. split; [rewrite map_app, gens_shift; exact G|]. split; [apply Forall_app; split; [apply yielding_shift, Y|constructor; [exact Yg|constructor]]|].
  split; [apply (ranked_weaken K _ (S k) (S k)); [apply ranked_late; assumption|auto|lia]|]. split; [intros d Hd; auto|]. split; [|split; [reflexivity|exact HQ]].
  intros d [Hd|Hd]; [auto|]. right. right. rewrite firsts_app. apply in_or_app. right. unfold firsts. cbn. rewrite app_nil_r. exact Hd.
Qed.
Lemma tick_wire K k : tick K k b_wire (fun K' w O => K' w /\ O = [w]).
Proof.
  apply tick_silent. intros b w b' E. inversion E; subst. split; [reflexivity|]. exists (fun d => K d \/ d = next b), [next b]. split; [intros d Hd; auto|].
  split; [intros d [Hd| ->]; cbn; auto|]. auto.
Qed.
End Lag.
