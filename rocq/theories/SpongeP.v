(** Proofs about sponge.rs, matrices.rs, poseidon.rs and rescue.rs. *)
From Coq Require Import ZArith List Bool Arith Lia Znumtheory Permutation.
From Verif Require Import Base FieldM FieldP ExprM BuilderM GadgetsM CryptoM Spec SpecCrypto ExprP BitsP MonoP LocalP
  SoundP CmpP GadgetSoundP HonestP ExecP CoreP CompleteP CmpCompleteP GadgetCompleteP PropLib CryptoP.
Import ListNotations.
Open Scope Z_scope.

Lemma Forall2_firstn' {A B} (R : A -> B -> Prop) n : forall l m, Forall2 R l m -> Forall2 R (firstn n l) (firstn n m).
Proof. induction n as [|n IH]; intros l m H; [constructor|]. destruct H; cbn; constructor; auto. Qed.
Lemma Forall2_skipn' {A B} (R : A -> B -> Prop) n : forall l m, Forall2 R l m -> Forall2 R (skipn n l) (skipn n m).
Proof. induction n as [|n IH]; intros l m H; [exact H|]. destruct H; cbn; [constructor|auto]. Qed.

Section Sponge.
Context {F : Field} (Hp : prime order).
Let Hord : 2 <= order := prime_ge2 Hp.

(** ** blocks and stream (pure) *)
Lemma blocks_fuel_chunks (v : expr -> Z) r : forall fuel l,
  blocks_fuel fuel r (map v l) = map (fun ch => map v ch ++ repeat 0 (r - length ch)) (chunks_fuel fuel r l).
Proof using.
  induction fuel as [|fuel IH]; intro l; cbn [blocks_fuel chunks_fuel map]; [reflexivity|].
  destruct l as [|x l]; [reflexivity|]. cbn [map].
  rewrite <- (map_cons v x l). rewrite firstn_map, skipn_map, map_length. rewrite IH. f_equal. f_equal.
  rewrite firstn_length. f_equal. lia.
Qed.

Fixpoint iterate {A} (k : nat) (p : A -> A) (x : A) : A := match k with O => x | S k' => iterate k' p (p x) end.
Lemma iterate_S {A} k (p : A -> A) x : iterate (S k) p x = p (iterate k p x).
Proof using. revert x. induction k as [|k IH]; intro x; [reflexivity|]. cbn [iterate] in *. apply IH. Qed.

Lemma stream_app p r a b st : stream p r (a + b) st = stream p r a st ++ stream p r b (iterate a p st).
Proof using.
  revert st. induction a as [|a IH]; intro st; cbn [stream iterate Nat.add]; [reflexivity|].
  rewrite IH, app_assoc. reflexivity.
Qed.
Lemma stream_snoc p r k st : stream p r (S k) st = stream p r k st ++ firstn r (iterate k p st).
Proof using. replace (S k) with (k + 1)%nat by lia. rewrite stream_app. cbn [stream]. rewrite app_nil_r. reflexivity. Qed.

Lemma stream_prefix p r n k st : (n <= length (stream p r k st))%nat -> (k <= S n)%nat ->
  firstn n (stream p r k st) = firstn n (stream p r (S n) st).
Proof using.
  intros L K. replace (S n) with (k + (S n - k))%nat by lia. rewrite stream_app, firstn_app.
  replace (n - length (stream p r k st))%nat with 0%nat by lia. cbn [firstn]. rewrite app_nil_r. reflexivity.
Qed.

(** ** absorbing *)
Lemma absorb_add w sec : forall chunk res, sponge_add sec chunk = Ok res ->
  length res = length sec /\ (length chunk <= length sec)%nat /\
  map (ev w) res = map (fun xy => (fst xy + snd xy) mod order) (combine (map (ev w) sec) (map (ev w) chunk ++ repeat 0 (length sec - length chunk))).
Proof using Hp.
  induction sec as [|e es IH]; intros chunk res E.
  - destruct chunk; cbn in E; [|discriminate]. injection E as <-. auto.
  - destruct chunk as [|c cs].
    + injection E as <-. cbn [length Nat.sub]. split; [reflexivity|]. split; [lia|].
      clear IH. change (S (length es)) with (length (e :: es)). generalize (e :: es) as l. cbn [map app].
      induction l as [|x l IHl]; [reflexivity|]. cbn [map length repeat combine fst snd]. rewrite <- IHl. f_equal.
      rewrite Z.add_0_r. symmetry. apply (ev_mod Hp).
    + cbn [sponge_add] in E. destruct (sponge_add es cs) as [r| |] eqn:E'; cbn in E; try discriminate. injection E as <-.
      destruct (IH cs r E') as (L1 & L2 & M). cbn [length map app combine Nat.sub fst snd]. split; [lia|]. split; [lia|].
      rewrite M, (ev_add_mod Hp). reflexivity.
Qed.

Lemma sponge_add_ok sec : forall chunk, (length chunk <= length sec)%nat -> exists res, sponge_add sec chunk = Ok res.
Proof using.
  induction sec as [|e es IH]; intros [|c cs] L; try (eexists; reflexivity); cbn in L; [lia|].
  destruct (IH cs ltac:(lia)) as [r E]. exists (e_add e c :: r). cbn. rewrite E. reflexivity.
Qed.

Lemma sponge_add_has s sec : forall chunk l1 l2, hasl s sec l1 -> hasl s chunk l2 -> (length chunk <= length sec)%nat ->
  exists res, sponge_add sec chunk = Ok res /\
    hasl s res (map (fun xy => (fst xy + snd xy) mod order) (combine l1 (l2 ++ repeat 0 (length sec - length chunk)))).
Proof using Hp.
  induction sec as [|e es IH]; intros [|c cs] l1 l2 H1 H2 L; cbn in L; try lia;
    inversion H1 as [|? a ? l1' Ha Hl1]; subst; inversion H2 as [|? b ? l2' Hb Hl2]; subst.
  - exists []. split; [reflexivity|constructor].
  - exists (e :: es). split; [reflexivity|]. cbn [length Nat.sub app]. clear IH L H2 Ha Hl1.
    change (S (length es)) with (length (e :: es)). revert H1. generalize (e :: es) as sec, (a :: l1') as l.
    induction sec as [|x sec IHs]; intros l H; inversion H; subst; cbn [length repeat combine map]; constructor; [|apply IHs; assumption].
    cbn [fst snd]. rewrite Z.add_0_r. eapply has_eq; [eassumption|]. symmetry. apply Z.mod_small. eapply (has_infield Hp); eassumption.
  - destruct (IH cs l1' l2' Hl1 Hl2 ltac:(lia)) as (r & E & Hr). exists (e_add e c :: r). cbn [sponge_add]. rewrite E.
    split; [reflexivity|]. cbn [length Nat.sub app combine map fst snd]. constructor; [apply (has_add Hp); assumption|exact Hr].
Qed.

Context (s : sponge) (p : list Z -> list Z).
Let r := bitrate s.
Let c := capacity s.

Lemma mono_sponge_step input cap : (forall xs, mono (mp_permute (sp_perm s) xs)) -> mono (sponge_step s input cap).
Proof using.
  intro M. unfold sponge_step. apply mono_bind; [apply M|intro]. repeat (apply mono_bind; [apply mono_lift|intro]). apply mono_ret.
Qed.
Lemma mono_sponge_squeeze n : (forall xs, mono (mp_permute (sp_perm s) xs)) -> forall fuel input cap outputs, mono (sponge_squeeze fuel s input cap outputs n).
Proof using.
  intros M fuel. induction fuel as [|f IH]; intros input cap outputs; cbn [sponge_squeeze]; destruct (length outputs <? n)%nat;
    try apply mono_ret; [apply mono_lift|]. apply mono_bind; [apply mono_sponge_step, M|]. intros [i' c']. apply IH.
Qed.

Lemma snd_sponge_step w (Hw : wf_witness w) input cap : computesl (mp_permute (sp_perm s)) (r + c) p ->
  length input = r -> length cap = c ->
  sound w (sponge_step s input cap) (fun ic => length (fst ic) = r /\ length (snd ic) = c /\
     map (ev w) (fst ic ++ snd ic) = p (map (ev w) (input ++ cap))).
Proof using Hp.
  intros Hm Li Lc. unfold sponge_step. cbv zeta.
  assert (L : length (input ++ cap) = (r + c)%nat) by (rewrite app_length; lia).
  eapply sound_bind; [apply (computesl_snd _ (r + c) p w); auto|intro; repeat (apply mono_bind; [apply mono_lift|intro]); apply mono_ret|].
  cbv beta. intros ns E. rewrite L.
  eapply sound_bind with (Q := fun _ => length ns = (r + c)%nat);
    [apply sound_lift; intros ? Eo; destruct (Nat.eqb_spec (r + c) (length ns)); [auto|discriminate]|intro; apply mono_bind; [apply mono_lift|intro; apply mono_ret]|].
  cbv beta. intros _ Ln. eapply sound_bind; [apply sound_true|intro; apply mono_ret|]. intros _ _. apply sound_ret. cbn [fst snd].
  fold r. rewrite firstn_skipn. rewrite firstn_length, skipn_length. split; [lia|]. split; [lia|exact E].
Qed.

Lemma snd_sponge_squeeze w (Hw : wf_witness w) st0 n : computesl (mp_permute (sp_perm s)) (r + c) p ->
  forall fuel k input cap outputs, (k + fuel = n)%nat -> length input = r -> length cap = c ->
  map (ev w) (input ++ cap) = iterate k p st0 -> map (ev w) outputs = stream p r (S k) st0 ->
  sound w (sponge_squeeze fuel s input cap outputs n)
    (fun res => (n <= length res)%nat /\ map (ev w) (firstn n res) = firstn n (stream p r (S n) st0)).
Proof using Hp.
  intros Hm. induction fuel as [|f IH]; intros k input cap outputs Ek Li Lc Es Eo; cbn [sponge_squeeze];
    destruct (Nat.ltb_spec (length outputs) n) as [L|L].
  - intros b a b' E. discriminate.
  - apply sound_ret. split; [exact L|]. rewrite <- firstn_map, Eo. apply stream_prefix; [|lia].
    rewrite <- Eo, map_length. exact L.
  - eapply sound_bind; [apply (snd_sponge_step w Hw input cap Hm Li Lc)| |].
    { intros [i' c']. apply mono_sponge_squeeze. apply Hm. }
    cbv beta. intros [i' c'] (L1 & L2 & E). cbn [fst snd] in *. apply (IH (S k)); auto; [lia| |].
    + rewrite E, Es, iterate_S. reflexivity.
    + rewrite map_app, Eo, (stream_snoc p r (S k)). f_equal. rewrite iterate_S, <- Es, <- E, map_app, firstn_app.
      rewrite map_length, L1, Nat.sub_diag. cbn [firstn]. rewrite app_nil_r, firstn_all2; [reflexivity|rewrite map_length; lia].
  - apply sound_ret. split; [exact L|]. rewrite <- firstn_map, Eo. apply stream_prefix; [|lia].
    rewrite <- Eo, map_length. exact L.
Qed.

Lemma snd_sponge w (Hw : wf_witness w) inputs n : computesl (mp_permute (sp_perm s)) (r + c) p ->
  sound w (sponge_evaluate s inputs n)
    (fun res => length res = n /\ map (ev w) res = sponge_fun p r c (map (ev w) inputs) n).
Proof using Hp.
  intros Hm. assert (M : forall xs, mono (mp_permute (sp_perm s) xs)) by apply Hm. unfold sponge_evaluate, chunks.
  fold r c. destruct (Nat.eqb_spec r 0) as [R|R]; [intros b a b' E; discriminate|].
  eapply sound_bind with (Q := fun cs => cs = chunks_fuel (length inputs) r inputs); [apply sound_lift; cbn; intros ? [= <-]; reflexivity| |].
  { intro cs. apply mono_bind; [|intros [? ?]; apply mono_bind; [apply mono_sponge_squeeze, M|intro; apply mono_ret]].
    apply mono_bfold. intros. apply mono_bind; [apply mono_lift|intro; apply mono_sponge_step, M]. }
  cbv beta. intros cs ->.
  eapply sound_bind with (Q := fun ic => length (fst ic) = r /\ length (snd ic) = c /\
     map (ev w) (fst ic ++ snd ic) = absorb_all p r c (map (ev w) inputs)).
  - unfold absorb_all, padded_blocks. rewrite map_length, (blocks_fuel_chunks (ev w)).
    generalize (chunks_fuel (length inputs) r inputs) as cs.
    assert (H0 : length (repeat e_zero r) = r /\ length (repeat e_zero c) = c /\ map (ev w) (repeat e_zero r ++ repeat e_zero c) = repeat 0 (r + c)).
    { rewrite !repeat_length. split; [reflexivity|]. split; [reflexivity|]. rewrite <- repeat_app.
      assert (G : forall k, map (ev w) (repeat e_zero k) = repeat 0 k); [|apply G].
      induction k as [|k IHk]; cbn [repeat map]; [reflexivity|]. rewrite IHk, (ev_zero_ Hp). reflexivity. }
    destruct H0 as (L1 & L2 & E). revert L1 L2 E. generalize (repeat e_zero r) as i0, (repeat e_zero c) as c0, (repeat 0 (r + c)) as st.
    intros i0 c0 st L1 L2 E cs. revert i0 c0 st L1 L2 E. induction cs as [|ch cs IH]; intros i0 c0 st L1 L2 E; cbn [bfold map fold_left].
    + apply sound_ret. auto.
    + eapply sound_bind with (Q := fun ic => length (fst ic) = r /\ length (snd ic) = c /\
        map (ev w) (fst ic ++ snd ic) = absorb p r st (map (ev w) ch ++ repeat 0 (r - length ch))).
      * cbn [fst snd]. eapply sound_bind with (Q := fun i' => sponge_add i0 ch = Ok i'); [apply sound_lift; auto|intro; apply mono_sponge_step, M|].
        cbv beta. intros i' Ea. destruct (absorb_add w i0 ch i' Ea) as (A1 & A2 & A3).
        eapply sound_weaken; [apply (snd_sponge_step w Hw i' c0 Hm); lia|]. cbv beta. intros ic (B1 & B2 & B3).
        split; [exact B1|]. split; [exact B2|]. rewrite B3. unfold absorb. f_equal. rewrite map_app, A3, L1. rewrite map_app in E. rewrite <- E.
        rewrite firstn_app, skipn_app, map_length, L1, Nat.sub_diag. cbn [firstn skipn]. rewrite app_nil_r.
        rewrite firstn_all2, skipn_all2 by (rewrite map_length; lia). reflexivity.
      * intro. apply mono_bfold. intros. apply mono_bind; [apply mono_lift|intro; apply mono_sponge_step, M].
      * cbv beta. intros [i1 c1] (B1 & B2 & B3). cbn [fst snd] in *. apply IH; auto.
  - intros [? ?]. apply mono_bind; [apply mono_sponge_squeeze, M|intro; apply mono_ret].
  - cbv beta. intros [i1 c1] (B1 & B2 & B3). cbn [fst snd] in *.
    eapply sound_bind; [apply (snd_sponge_squeeze w Hw (absorb_all p r c (map (ev w) inputs)) n Hm n 0); auto| |].
    + cbn [stream iterate]. rewrite app_nil_r, <- B3, map_app, firstn_app, map_length, B1, Nat.sub_diag. cbn [firstn].
      rewrite app_nil_r, firstn_all2; [reflexivity|rewrite map_length; lia].
    + intro; apply mono_ret.
    + cbv beta. intros res (Ln & Er). apply sound_ret. split; [rewrite firstn_length; lia|exact Er].
Qed.

(** ** completeness *)
Context (Hlen : forall l, length l = (r + c)%nat -> length (p l) = (r + c)%nat).

Lemma cmpl_sponge_step D P t input cap l : completesl (mp_permute (sp_perm s)) (r + c) p ->
  length input = r -> length cap = c -> hasl t (input ++ cap) l ->
  comp D P t (sponge_step s input cap) (done P (fun ic t' => length (fst ic) = r /\ length (snd ic) = c /\
     hasl t' (fst ic ++ snd ic) (p l))).
Proof using Hp Hlen.
  intros Hm Li Lc Hl. unfold sponge_step. cbv zeta.
  assert (L : length (input ++ cap) = (r + c)%nat) by (rewrite app_length; lia).
  eapply comp_bind; [apply Hm; [exact L|exact Hl]|]. intros ns P1 t1 X1 G1 [-> H1].
  assert (Ln : length ns = (r + c)%nat).
  { rewrite (hasl_length _ _ _ H1). apply Hlen. rewrite <- (hasl_length _ _ _ Hl). exact L. }
  rewrite L, Ln, Nat.eqb_refl. eapply comp_liftb; [reflexivity|]. fold r.
  destruct (Nat.leb_spec r (r + c)); [|lia]. eapply comp_liftb; [reflexivity|]. apply comp_ret. split; [reflexivity|]. cbn [fst snd].
  rewrite firstn_skipn, firstn_length, skipn_length. split; [lia|]. split; [lia|exact H1].
Qed.

Lemma cmpl_sponge_squeeze D P st0 n : (0 < r)%nat -> completesl (mp_permute (sp_perm s)) (r + c) p ->
  forall fuel k t input cap outputs, (k + fuel = n)%nat -> length input = r -> length cap = c -> length outputs = (S k * r)%nat ->
  hasl t (input ++ cap) (iterate k p st0) -> hasl t outputs (stream p r (S k) st0) ->
  comp D P t (sponge_squeeze fuel s input cap outputs n)
    (done P (fun res t' => hasl t' (firstn n res) (firstn n (stream p r (S n) st0)))).
Proof using Hp Hlen.
  intros R Hm. induction fuel as [|f IH]; intros k t input cap outputs Ek Li Lc Lo Es Eo; cbn [sponge_squeeze];
    destruct (Nat.ltb_spec (length outputs) n) as [L|L].
  - nia.
  - apply comp_ret. split; [reflexivity|]. rewrite <- (stream_prefix p r n (S k)); [|rewrite <- (hasl_length _ _ _ Eo); exact L|lia].
    apply Forall2_firstn'. exact Eo.
  - eapply comp_bind; [apply (cmpl_sponge_step D P t input cap _ Hm Li Lc Es)|].
    intros [i' c'] P1 t1 X1 G1 [-> (L1 & L2 & E)]. cbn [fst snd] in *. carry. apply (IH (S k)); auto; [lia|rewrite app_length; nia| |].
    + rewrite iterate_S. exact E.
    + rewrite (stream_snoc p r (S k)). apply Forall2_app; [exact Eo|]. rewrite iterate_S.
      replace i' with (firstn r (i' ++ c')); [apply Forall2_firstn'; exact E|].
      rewrite firstn_app, L1, Nat.sub_diag. cbn [firstn]. rewrite app_nil_r. apply firstn_all2. lia.
  - apply comp_ret. split; [reflexivity|]. rewrite <- (stream_prefix p r n (S k)); [|rewrite <- (hasl_length _ _ _ Eo); exact L|lia].
    apply Forall2_firstn'. exact Eo.
Qed.

Lemma cmpl_sponge D P t inputs l n : (0 < r)%nat -> completesl (mp_permute (sp_perm s)) (r + c) p -> hasl t inputs l ->
  comp D P t (sponge_evaluate s inputs n) (done P (fun res t' => hasl t' res (sponge_fun p r c l n))).
Proof using Hp Hlen.
  intros R Hm Hl. unfold sponge_evaluate, chunks. fold r c. destruct (Nat.eqb_spec r 0); [lia|].
  eapply comp_liftb; [reflexivity|].
  eapply comp_bind with (Q := done P (fun ic t' => length (fst ic) = r /\ length (snd ic) = c /\
     hasl t' (fst ic ++ snd ic) (absorb_all p r c l))).
  - unfold absorb_all, padded_blocks. rewrite <- (hasl_length _ _ _ Hl).
    assert (H0 : length (repeat e_zero r) = r /\ length (repeat e_zero c) = c /\ hasl t (repeat e_zero r ++ repeat e_zero c) (repeat 0 (r + c))).
    { rewrite !repeat_length. split; [reflexivity|]. split; [reflexivity|]. rewrite <- repeat_app.
      assert (G : forall k, hasl t (repeat e_zero k) (repeat 0 k)); [|apply G].
      induction k as [|k IHk]; cbn [repeat]; constructor; [apply (has_zero Hp)|exact IHk]. }
    destruct H0 as (L1 & L2 & E). revert L1 L2 E. generalize (repeat e_zero r) as i0, (repeat e_zero c) as c0, (repeat 0 (r + c)) as st.
    generalize (length inputs) as fuel. intro fuel. revert t inputs l Hl. induction fuel as [|fuel IH]; intros t xs l Hl i0 c0 st L1 L2 E;
      cbn [chunks_fuel blocks_fuel bfold fold_left]; [apply comp_ret; split; auto|].
    destruct Hl as [|x a xs l Hx Hl]; [apply comp_ret; split; auto|]. cbn [bfold fold_left].
    assert (Hxl : hasl t (x :: xs) (a :: l)) by (constructor; assumption). clear Hx Hl.
    revert Hxl. generalize (x :: xs) as ys, (a :: l) as m. intros ys m Hy.
    eapply comp_bind with (Q := done P (fun ic t' => length (fst ic) = r /\ length (snd ic) = c /\
        hasl t' (fst ic ++ snd ic) (absorb p r st (firstn r m ++ repeat 0 (r - length m))))).
    + cbn [fst snd]. assert (Lf : (length (firstn r ys) <= length i0)%nat) by (rewrite firstn_length; lia).
      assert (Ei : hasl t i0 (firstn r st)).
      { replace i0 with (firstn r (i0 ++ c0)); [apply Forall2_firstn', E|]. rewrite firstn_app, L1, Nat.sub_diag. cbn [firstn]. rewrite app_nil_r. apply firstn_all2. lia. }
      assert (Ec : hasl t c0 (skipn r st)).
      { replace c0 with (skipn r (i0 ++ c0)); [apply Forall2_skipn', E|]. rewrite skipn_app, L1, Nat.sub_diag. cbn [skipn]. rewrite skipn_all2 by lia. reflexivity. }
      destruct (sponge_add_has t i0 (firstn r ys) (firstn r st) (firstn r m) Ei (Forall2_firstn' _ r _ _ Hy) Lf) as (i1 & Ea & Hi).
      eapply comp_liftb; [exact Ea|]. destruct (absorb_add (input_witness []) i0 _ i1 Ea) as (A1 & _ & _).
      eapply comp_weaken; [eapply (cmpl_sponge_step D P t i1 c0); [exact Hm|lia|exact L2|apply Forall2_app; [exact Hi|exact Ec]]|].
      cbv beta. intros ic P1 t1 _ _ [-> (B1 & B2 & B3)]. split; [reflexivity|]. split; [exact B1|]. split; [exact B2|].
      unfold absorb. rewrite firstn_length, L1 in B3. replace (r - length m)%nat with (r - Nat.min r (length ys))%nat; [exact B3|].
      rewrite (hasl_length _ _ _ Hy). lia.
    + intros [i1 c1] P1 t1 X1 G1 [-> (B1 & B2 & B3)]. cbn [fst snd] in *. apply IH; auto. apply Forall2_skipn'. eapply hasl_ext; eauto.
  - intros [i1 c1] P1 t1 X1 G1 [-> (B1 & B2 & B3)]. cbn [fst snd] in *.
    eapply comp_bind; [apply (cmpl_sponge_squeeze D P (absorb_all p r c l) n R Hm n 0 t1 i1 c1 i1); auto; [lia|]|].
    + cbn [stream iterate]. rewrite app_nil_r. replace i1 with (firstn r (i1 ++ c1)); [apply Forall2_firstn', B3|].
      rewrite firstn_app, B1, Nat.sub_diag. cbn [firstn]. rewrite app_nil_r. apply firstn_all2. lia.
    + intros res P2 t2 X2 G2 [-> Hr]. apply comp_ret. split; auto.
Qed.
End Sponge.

(** ** pure facts about the sponge function *)
Section SpongeFun.
Context {F : Field}.

Lemma stream_length p r k st (n : nat) : (r <= n)%nat -> (forall l, length l = n -> length (p l) = n) -> length st = n ->
  length (stream p r k st) = (k * r)%nat.
Proof.
  intros R Hl. revert st. induction k as [|k IH]; intros st L; cbn [stream]; [reflexivity|].
  rewrite app_length, firstn_length, IH by (apply Hl, L). lia.
Qed.

Lemma absorb_length p r c st b : (forall l, length l = (r + c)%nat -> length (p l) = (r + c)%nat) ->
  length st = (r + c)%nat -> length b = r -> length (absorb p r st b) = (r + c)%nat.
Proof.
  intros Hl Ls Lb. unfold absorb. apply Hl. rewrite app_length, map_length, combine_length, firstn_length, skipn_length. lia.
Qed.

Lemma blocks_fuel_lengths r : forall fuel l, Forall (fun b => length b = r) (blocks_fuel fuel r l).
Proof.
  induction fuel as [|f IH]; intros [|x l]; cbn [blocks_fuel]; constructor; auto.
  rewrite app_length, firstn_length, repeat_length. lia.
Qed.

Lemma absorb_all_length p r c l : (forall l, length l = (r + c)%nat -> length (p l) = (r + c)%nat) ->
  length (absorb_all p r c l) = (r + c)%nat.
Proof.
  intro Hl. unfold absorb_all, padded_blocks. generalize (blocks_fuel_lengths r (length l) l).
  generalize (blocks_fuel (length l) r l) as bs. assert (L0 := repeat_length 0 (r + c)). revert L0. generalize (repeat 0 (r + c)) as st.
  intros st L0 bs H. revert st L0. induction H as [|b bs Hb _ IH]; intros st L0; cbn [fold_left]; [exact L0|].
  apply IH. apply absorb_length; auto.
Qed.

Lemma sponge_fun_length p r c l n : (0 < r)%nat -> (forall l, length l = (r + c)%nat -> length (p l) = (r + c)%nat) ->
  length (sponge_fun p r c l n) = n.
Proof.
  intros R Hl. unfold sponge_fun. rewrite firstn_length, (stream_length p r (S n) _ (r + c)); auto; [nia|lia|].
  apply absorb_all_length, Hl.
Qed.

Lemma sponge_fun_prefix p r c l n m : (n <= m)%nat -> (0 < r)%nat ->
  (forall l, length l = (r + c)%nat -> length (p l) = (r + c)%nat) ->
  firstn n (sponge_fun p r c l m) = sponge_fun p r c l n.
Proof.
  intros L R Hl. unfold sponge_fun. rewrite firstn_firstn, Nat.min_l by exact L.
  replace (S m) with (S n + (m - n))%nat by lia. rewrite stream_app, firstn_app.
  rewrite (stream_length p r (S n) _ (r + c)); auto; [|lia|apply absorb_all_length, Hl].
  replace (n - S n * r)%nat with 0%nat by nia. cbn [firstn]. rewrite app_nil_r. reflexivity.
Qed.

Lemma blocks_fuel_more r : (0 < r)%nat -> forall f1 f2 l, (length l <= f1)%nat -> (length l <= f2)%nat ->
  blocks_fuel f1 r l = blocks_fuel f2 r l.
Proof.
  intro R. induction f1 as [|f1 IH]; intros f2 l L1 L2.
  - destruct l; [|cbn in L1; lia]. destruct f2; reflexivity.
  - destruct l as [|x l]; [destruct f2; reflexivity|]. destruct f2 as [|f2]; [cbn in L2; lia|]. cbn [blocks_fuel]. f_equal.
    apply IH; rewrite skipn_length; cbn [length] in *; lia.
Qed.

(** Zero padding confuses inputs of different lengths ... *)
Lemma padding_confuses r l : (0 < r)%nat -> (length l mod r <> 0)%nat -> padded_blocks r (l ++ [0]) = padded_blocks r l.
Proof.
  intros R. unfold padded_blocks.
  assert (G : forall n l, (length l < n)%nat -> (length l mod r <> 0)%nat -> blocks_fuel n r (l ++ [0]) = blocks_fuel n r l).
  { clear l. induction n as [|n IH]; intros l Ln Hm; [lia|]. destruct l as [|x l].
    - cbn in Hm. rewrite Nat.mod_0_l in Hm by lia. lia.
    - cbn [app blocks_fuel]. change (x :: l ++ [0]) with ((x :: l) ++ [0]). set (m := x :: l) in *.
      destruct (le_lt_dec r (length m)) as [L|L].
      + assert (Lm : length m <> r) by (intro E; apply Hm; rewrite E; apply Nat.mod_same; lia).
        rewrite firstn_app, skipn_app, app_length. cbn [length]. replace (r - length m)%nat with 0%nat by lia. cbn [firstn skipn].
        rewrite app_nil_r. replace (r - (length m + 1))%nat with 0%nat by lia. f_equal. apply IH.
        * rewrite skipn_length. lia.
        * rewrite skipn_length. intro E. apply Hm. replace (length m) with ((length m - r) + 1 * r)%nat by lia.
          rewrite Nat.mod_add by lia. exact E.
      + rewrite (firstn_all2 m) by lia. rewrite (skipn_all2 m) by lia. rewrite (firstn_all2 (m ++ [0])), (skipn_all2 (m ++ [0])) by (rewrite app_length; cbn [length]; lia).
        rewrite app_length. cbn [length]. f_equal. rewrite <- app_assoc. f_equal.
        replace (r - length m)%nat with (S (r - (length m + 1))) by lia. reflexivity. }
  intro Hm. rewrite G by (rewrite ?app_length; cbn; lia). apply blocks_fuel_more; rewrite ?app_length; cbn; lia.
Qed.

(** ... but not inputs of the same length. *)
Lemma padding_injective r : (0 < r)%nat -> forall l1 l2, length l1 = length l2 -> padded_blocks r l1 = padded_blocks r l2 -> l1 = l2.
Proof.
  intros R l1 l2 L. unfold padded_blocks. rewrite L.
  assert (G : forall n l1 l2, length l1 = length l2 -> (length l1 <= n)%nat -> (length l2 <= n)%nat ->
     blocks_fuel n r l1 = blocks_fuel n r l2 -> l1 = l2); [|apply G; lia].
  clear l1 l2 L. induction n as [|n IH]; intros l1 l2 L L1 L2 E.
  - destruct l1, l2; cbn in *; try lia; reflexivity.
  - destruct l1 as [|x l1], l2 as [|y l2]; cbn [length] in *; try lia; [reflexivity|]. cbn [blocks_fuel] in E.
    injection E as E1 E2. cbn [length] in E1.
    assert (Ef : firstn r (x :: l1) = firstn r (y :: l2)).
    { assert (Q : length (firstn r (x :: l1)) = length (firstn r (y :: l2))) by (rewrite !firstn_length; cbn; lia).
      revert Q E1. generalize (firstn r (x :: l1)) as u, (firstn r (y :: l2)) as v, (repeat 0 (r - S (length l1))) as z1, (repeat 0 (r - S (length l2))) as z2.
      induction u as [|a u IHu]; intros [|b v] z1 z2 Q E1; cbn in *; try discriminate; [reflexivity|]. injection E1 as -> E1. f_equal. eapply IHu; eauto. }
    apply IH in E2.
    + rewrite <- (firstn_skipn r (x :: l1)), <- (firstn_skipn r (y :: l2)), Ef, E2. reflexivity.
    + rewrite !skipn_length. cbn [length]. lia.
    + rewrite skipn_length. cbn [length]. lia.
    + rewrite skipn_length. cbn [length]. lia.
Qed.
End SpongeFun.

(** ** lanes: a permutation that acts on each lane separately gives a sponge that does *)
Lemma nth_error_firstn {A} (l : list A) n k : (k < n)%nat -> nth_error (firstn n l) k = nth_error l k.
Proof. revert l k. induction n as [|n IH]; intros l k Hk; [lia|]. destruct l, k; cbn [firstn nth_error]; auto. apply IH. lia. Qed.
Lemma nth_error_skipn {A} (l : list A) n k : nth_error (skipn n l) k = nth_error l (n + k).
Proof. revert l. induction n as [|n IH]; intros l; [reflexivity|]. destruct l; cbn [skipn Nat.add nth_error]; [destruct k; reflexivity|apply IH]. Qed.
Lemma nth_error_combine {A B} (l : list A) (m : list B) k :
  nth_error (combine l m) k = match nth_error l k, nth_error m k with Some a, Some b => Some (a, b) | _, _ => None end.
Proof. revert l m. induction k as [|k IH]; intros [|a l] [|b m]; cbn [combine nth_error]; auto. destruct (nth_error l k); reflexivity. Qed.

Section Lanes.
Context {F : Field}.
Variable p : list Z -> list Z.
Variables r c i : nat.
Hypothesis Hi : (i < r)%nat.
Hypothesis Hlen : forall l, length l = (r + c)%nat -> length (p l) = (r + c)%nat.
Hypothesis Hlane : forall l1 l2, nth_error l1 i = nth_error l2 i -> nth_error (p l1) i = nth_error (p l2) i.

Lemma absorb_lane st1 st2 b1 b2 : length st1 = (r + c)%nat -> length st2 = (r + c)%nat -> length b1 = r -> length b2 = r ->
  nth_error st1 i = nth_error st2 i -> nth_error b1 i = nth_error b2 i ->
  nth_error (absorb p r st1 b1) i = nth_error (absorb p r st2 b2) i.
Proof using Hi Hlane.
  intros L1 L2 B1 B2 Es Eb. unfold absorb. apply Hlane.
  assert (K : forall st b, length st = (r + c)%nat -> length b = r ->
     length (map (fun xy : Z * Z => (fst xy + snd xy) mod order) (combine (firstn r st) b)) = r).
  { intros st b Ls Lb. rewrite map_length, combine_length, firstn_length. lia. }
  rewrite !nth_error_app1 by (rewrite K; auto). rewrite !nth_error_map, !nth_error_combine, !nth_error_firstn by exact Hi.
  rewrite Es, Eb. reflexivity.
Qed.

Lemma blocks_lane : forall fuel l1 l2, length l1 = length l2 -> (forall q, nth_error l1 (q * r + i) = nth_error l2 (q * r + i)) ->
  Forall2 (fun b1 b2 => nth_error b1 i = nth_error b2 i) (blocks_fuel fuel r l1) (blocks_fuel fuel r l2).
Proof using Hi.
  induction fuel as [|f IH]; intros l1 l2 L E; cbn [blocks_fuel]; [constructor|].
  destruct l1 as [|x l1], l2 as [|y l2]; try discriminate; [constructor|].
  remember (x :: l1) as m1. remember (y :: l2) as m2. constructor.
  - destruct (le_lt_dec (length m1) i) as [K|K].
    + rewrite !nth_error_app2 by (rewrite firstn_length; lia). rewrite !firstn_length, L. reflexivity.
    + rewrite !nth_error_app1 by (rewrite firstn_length; lia). rewrite !nth_error_firstn by exact Hi. exact (E 0%nat).
  - apply IH; [rewrite !skipn_length; lia|]. intro q. rewrite !nth_error_skipn. specialize (E (S q)).
    replace (r + (q * r + i))%nat with (S q * r + i)%nat by lia. exact E.
Qed.

Lemma absorb_all_lane l1 l2 : length l1 = length l2 -> (forall q, nth_error l1 (q * r + i) = nth_error l2 (q * r + i)) ->
  nth_error (absorb_all p r c l1) i = nth_error (absorb_all p r c l2) i.
Proof using Hi Hlen Hlane.
  intros L E. unfold absorb_all, padded_blocks. rewrite <- L.
  pose proof (blocks_lane (length l1) l1 l2 L E) as B. pose proof (blocks_fuel_lengths r (length l1) l1) as F1.
  pose proof (blocks_fuel_lengths r (length l1) l2) as F2.
  assert (G : forall st1 st2, length st1 = (r + c)%nat -> length st2 = (r + c)%nat -> nth_error st1 i = nth_error st2 i ->
    nth_error (fold_left (absorb p r) (blocks_fuel (length l1) r l1) st1) i = nth_error (fold_left (absorb p r) (blocks_fuel (length l1) r l2) st2) i).
  { clear E L. revert F1 F2. induction B as [|b1 b2 t1 t2 E _ IH]; intros F1 F2 st1 st2 L1 L2 Es; cbn [fold_left]; [exact Es|].
    apply Forall_cons_iff in F1, F2. destruct F1 as [A1 F1], F2 as [A2 F2]. apply IH; auto.
    - apply absorb_length; auto.
    - apply absorb_length; auto.
    - apply absorb_lane; auto. }
  apply G; [rewrite repeat_length; reflexivity|rewrite repeat_length; reflexivity|reflexivity].
Qed.

Lemma iterate_lane : forall k st1 st2, nth_error st1 i = nth_error st2 i -> nth_error (iterate k p st1) i = nth_error (iterate k p st2) i.
Proof using Hlane. induction k as [|k IH]; intros st1 st2 E; cbn [iterate]; auto. Qed.

Lemma stream_nth : forall k st q, length st = (r + c)%nat -> (q < k)%nat -> nth_error (stream p r k st) (q * r + i) = nth_error (iterate q p st) i.
Proof using Hi Hlen.
  induction k as [|k IH]; intros st q L Hq; [lia|]. cbn [stream]. assert (Lf : length (firstn r st) = r) by (rewrite firstn_length; lia).
  destruct q as [|q].
  - cbn [Nat.mul Nat.add iterate]. rewrite nth_error_app1 by lia. apply nth_error_firstn. exact Hi.
  - rewrite nth_error_app2 by lia. rewrite Lf. replace (S q * r + i - r)%nat with (q * r + i)%nat by lia.
    rewrite IH by (auto; lia). reflexivity.
Qed.

Lemma sponge_lane l1 l2 n q : length l1 = length l2 -> (forall k, nth_error l1 (k * r + i) = nth_error l2 (k * r + i)) ->
  nth_error (sponge_fun p r c l1 n) (q * r + i) = nth_error (sponge_fun p r c l2 n) (q * r + i).
Proof using Hi Hlen Hlane.
  intros L E. unfold sponge_fun. destruct (le_lt_dec n (q * r + i)) as [K|K].
  - assert (N : forall l : list Z, nth_error (firstn n l) (q * r + i) = None).
    { intro l. apply nth_error_None. rewrite firstn_length. lia. }
    rewrite !N. reflexivity.
  - rewrite !nth_error_firstn by exact K.
    assert (q < S n)%nat by nia.
    rewrite !stream_nth by (auto using absorb_all_length). apply iterate_lane, absorb_all_lane; assumption.
Qed.
End Lanes.
