(** Matrices of another size than the state.

    Neither builder compares the matrix with the width (rescue.rs 101-117, poseidon.rs 75-101), and the product zips rows with
    lanes (matrices.rs 42-51).  Rows beyond the width are ignored without notice.  With fewer rows the state shrinks to the
    number of rows in the first round, and a sponge stops at its length assertion (sponge.rs 59 and 70). *)
From Coq Require Import ZArith List Bool Arith Lia Znumtheory.
From Verif Require Import Base FieldM FieldP ExprM BuilderM GadgetsM CryptoM ArithP Spec SpecCrypto ExprP MonoP SoundP HonestP ExecP CoreP
  CompleteP GadgetSoundP PropLib CryptoP SpongeP MatrixP Demo PropsCrypto PropsDefaults.
Import ListNotations.
Open Scope Z_scope.

Section Size.
Context {F : Field}.

Lemma matrix_mul_len m (l : list expr) : length (matrix_mul m l) = Nat.min (length m) (length l).
Proof. unfold matrix_mul. rewrite map_length. apply combine_length. Qed.

Lemma update_first_len f (l : list expr) b r b' : update_first f l b = Ok (r, b') -> length r = length l.
Proof.
  destruct l as [|e l]; cbn [update_first]; intro E; [discriminate|].
  destruct (bbind_ok _ _ _ _ _ E) as (e' & b1 & _ & E2). injection E2 as <- _. reflexivity.
Qed.

Lemma bfold_inv {A S} (P : S -> Prop) (f : S -> A -> B S) :
  (forall s a b s' b', P s -> f s a b = Ok (s', b') -> P s') ->
  forall l s b s' b', P s -> bfold f l s b = Ok (s', b') -> P s'.
Proof.
  intro H. induction l as [|a l IH]; intros s b s' b' Ps; cbn [bfold]; intro E.
  - injection E as <- _. exact Ps.
  - destruct (bbind_ok _ _ _ _ _ E) as (s1 & b1 & E1 & E2). exact (IH _ _ _ _ (H _ _ _ _ _ Ps E1) E2).
Qed.

Lemma bfold_cong {A S} (P : S -> Prop) (f g : S -> A -> B S) :
  (forall s a b, P s -> f s a b = g s a b) -> (forall s a b s' b', P s -> f s a b = Ok (s', b') -> P s') ->
  forall l s b, P s -> bfold f l s b = bfold g l s b.
Proof.
  intros Hfg H. induction l as [|a l IH]; intros s b Ps; [reflexivity|].
  cbn [bfold]. unfold bbind. rewrite <- (Hfg s a b Ps). destruct (f s a b) as [[s1 b1]| |] eqn:E; [|reflexivity..].
  exact (IH s1 b1 (H _ _ _ _ _ Ps E)).
Qed.

Lemma poseidon_round_len p rd (s : list expr) b s' b' :
  bbind (if poseidon_full_round p rd then bmap (sbox_permute (pos_sbox p)) s else update_first (sbox_permute (pos_sbox p)) s)
    (fun subbed => bret (matrix_mul (pos_mds p) subbed)) b = Ok (s', b') -> length s' = Nat.min (length (pos_mds p)) (length s).
Proof.
  intro E. destruct (bbind_ok _ _ _ _ _ E) as (s1 & b1 & E1 & E2). injection E2 as <- _. rewrite matrix_mul_len. f_equal.
  destruct (poseidon_full_round p rd); [exact (bmap_length _ _ _ _ _ E1)|exact (update_first_len _ _ _ _ _ E1)].
Qed.

Lemma rescue_round_len q (s : list expr) b s' b' :
  bbind (bmap (rescue_pi1 q) s) (fun c1 => bbind (bmap (rescue_pi2 q) (matrix_mul (res_mds q) c1))
    (fun c2 => bret (matrix_mul (res_mds q) c2))) b = Ok (s', b') -> length s' = Nat.min (length (res_mds q)) (length s).
Proof.
  intro E. destruct (bbind_ok _ _ _ _ _ E) as (s1 & b1 & E1 & E2). destruct (bbind_ok _ _ _ _ _ E2) as (s2 & b2 & E3 & E4).
  injection E4 as <- _. rewrite matrix_mul_len, (bmap_length _ _ _ _ _ E3), matrix_mul_len, (bmap_length _ _ _ _ _ E1). lia.
Qed.

Lemma poseidon_len p xs b r b' : (0 < pos_full p + pos_partial p)%nat -> poseidon_permute p xs b = Ok (r, b') ->
  length xs = pos_width p /\ length r = Nat.min (length (pos_mds p)) (pos_width p).
Proof.
  intros Hr. unfold poseidon_permute. unfold bbind at 1, blift at 1.
  destruct (Nat.eqb_spec (length xs) (pos_width p)) as [W|]; cbn [oassert obind]; [|discriminate].
  unfold bbind at 1, blift at 1. destruct (Nat.eqb_spec (pos_full p mod 2) 0); cbn [oassert obind]; [|discriminate].
  intro E. split; [exact W|]. rewrite <- W. clear W. destruct (pos_full p + pos_partial p)%nat as [|n]; [lia|]. cbn [seq bfold] in E.
  destruct (bbind_ok _ _ _ _ _ E) as (s1 & b1 & E1 & E2). apply poseidon_round_len in E1.
  refine (bfold_inv (fun s => length s = Nat.min (length (pos_mds p)) (length xs)) _ _ _ _ _ _ _ E1 E2).
  intros s a b0 s' b0' Hs E0. rewrite (poseidon_round_len _ _ _ _ _ _ E0), Hs. lia.
Qed.

Lemma rescue_len q xs b r b' : (0 < res_rounds q)%nat -> rescue_permute q xs b = Ok (r, b') ->
  length r = Nat.min (length (res_mds q)) (length xs).
Proof.
  intros Hr. unfold rescue_permute. destruct (res_rounds q) as [|n]; [lia|]. cbn [seq bfold]. intro E.
  destruct (bbind_ok _ _ _ _ _ E) as (s1 & b1 & E1 & E2). apply rescue_round_len in E1.
  refine (bfold_inv (fun s => length s = Nat.min (length (res_mds q)) (length xs)) _ _ _ _ _ _ _ E1 E2).
  intros s a b0 s' b0' Hs E0. rewrite (rescue_round_len _ _ _ _ _ E0), Hs. lia.
Qed.

(** A sponge over a permutation that never returns as many lanes as it is given. *)
Lemma step_shrinks s : (forall xs b r b', length xs = (bitrate s + capacity s)%nat -> mp_permute (sp_perm s) xs b = Ok (r, b') ->
    length r <> length xs) ->
  forall i c b x, length i = bitrate s -> length c = capacity s -> sponge_step s i c b <> Ok x.
Proof.
  intros H i c b [x b'] Hi Hc E. unfold sponge_step in E. destruct (bbind_ok _ _ _ _ _ E) as (r & b1 & E1 & E2).
  assert (L : length (i ++ c) = (bitrate s + capacity s)%nat) by (rewrite app_length; lia).
  specialize (H _ _ _ _ L E1). unfold bbind at 1, blift at 1 in E2.
  destruct (Nat.eqb_spec (length (i ++ c)) (length r)) as [Q|]; [congruence|discriminate].
Qed.

Lemma sponge_add_len : forall chunk section r, sponge_add section chunk = Ok r -> length r = length section.
Proof.
  induction chunk as [|c cs IH]; intros [|e es] r; cbn [sponge_add]; intro E; try discriminate; try (injection E as <-; reflexivity).
  destruct (sponge_add es cs) as [r0| |] eqn:E0; try discriminate. injection E as <-. cbn [length]. f_equal. exact (IH _ _ E0).
Qed.

Lemma sponge_shrinks s : (forall xs b r b', length xs = (bitrate s + capacity s)%nat -> mp_permute (sp_perm s) xs b = Ok (r, b') ->
    length r <> length xs) ->
  forall inputs n b x, inputs <> [] \/ (bitrate s < n)%nat -> sponge_evaluate s inputs n b <> Ok x.
Proof.
  intros H inputs n b [x b'] Hn E. unfold sponge_evaluate in E. destruct (bbind_ok _ _ _ _ _ E) as (cs & b1 & E1 & E2).
  destruct (bbind_ok _ _ _ _ _ E2) as ([i c] & b2 & E3 & E4). destruct cs as [|c0 cs].
  - cbn [bfold] in E3. injection E3 as <- <- <-. destruct (bbind_ok _ _ _ _ _ E4) as (o & b3 & E5 & _).
    assert (inputs = []) as ->.
    { unfold blift, chunks in E1. destruct (bitrate s =? 0)%nat; [discriminate|]. destruct inputs; [reflexivity|]. discriminate. }
    destruct Hn as [Hn|Hn]; [congruence|]. destruct n as [|n]; [lia|]. cbn [sponge_squeeze] in E5. rewrite repeat_length in E5.
    destruct (Nat.ltb_spec (bitrate s) (S n)); [|lia]. destruct (bbind_ok _ _ _ _ _ E5) as (y & b4 & E6 & _).
    revert E6. apply step_shrinks; [exact H|apply repeat_length..].
  - cbn [bfold] in E3. destruct (bbind_ok _ _ _ _ _ E3) as (y & b3 & E5 & _). destruct (bbind_ok _ _ _ _ _ E5) as (i' & b4 & E6 & E7).
    revert E7. apply step_shrinks; [exact H| |apply repeat_length].
    unfold blift in E6. cbn [fst] in E6. destruct (sponge_add (repeat e_zero (bitrate s)) c0) as [r| |] eqn:E8; try discriminate.
    injection E6 as <- _. rewrite (sponge_add_len _ _ _ E8). apply repeat_length.
Qed.

Lemma matrix_mul_firstn m (l : list expr) : matrix_mul (firstn (length l) m) l = matrix_mul m l.
Proof. unfold matrix_mul. f_equal. revert l. induction m as [|r m IH]; intros [|x l]; cbn; [reflexivity..|]. f_equal. apply IH. Qed.
End Size.

(** The builders take any matrix. *)
Theorem C120_accepted : forall (F : Field) fuel width alpha n full partial sb m, (0 < width)%nat ->
  rescue_build fuel width (Some alpha) (Some n) None (Some m) = Ok (mkRescue width alpha n m) /\
  poseidon_build width (full, partial) (Some sb) (Some m) = Ok (mkPoseidon width full partial sb m).
Proof. intros F fuel width alpha n full partial sb m H. split; [apply C78_build; cbn; auto|reflexivity]. Qed.
Print Assumptions C120_accepted.

(** What they then return has as many lanes as the smaller of the matrix and the state. *)
Theorem C120_lanes : forall (F : Field) p q xs b r b',
  ((0 < pos_full p + pos_partial p)%nat -> poseidon_permute p xs b = Ok (r, b') ->
     length xs = pos_width p /\ length r = Nat.min (length (pos_mds p)) (pos_width p)) /\
  ((0 < res_rounds q)%nat -> rescue_permute q xs b = Ok (r, b') -> length r = Nat.min (length (res_mds q)) (length xs)).
Proof. intros. split; [apply poseidon_len|apply rescue_len]. Qed.
Print Assumptions C120_lanes.

(** With too few rows no sponge over them returns once the permutation is called: for any input at all, or for more outputs
    than the rate. *)
Theorem C120_short : forall (F : Field) p q r c inputs n b x, inputs <> [] \/ (r < n)%nat ->
  ((0 < pos_full p + pos_partial p)%nat -> (length (pos_mds p) < pos_width p)%nat ->
     sponge_evaluate (mkSponge (poseidon_mp p) r c) inputs n b <> Ok x) /\
  ((0 < res_rounds q)%nat -> (length (res_mds q) < r + c)%nat -> sponge_evaluate (mkSponge (rescue_mp q) r c) inputs n b <> Ok x).
Proof.
  intros F p q r c inputs n b x Hn. split; intros Hr Hs; apply sponge_shrinks; try exact Hn; cbn [sp_perm bitrate capacity mp_permute poseidon_mp rescue_mp].
  - intros xs b0 r0 b0' _ E. destruct (poseidon_len _ _ _ _ _ Hr E) as (-> & ->). lia.
  - intros xs b0 r0 b0' L E. rewrite (rescue_len _ _ _ _ _ Hr E). lia.
Qed.
Print Assumptions C120_short.

(** An empty input and at most as many outputs as the rate: zeros, without any constraint, whatever the permutation. *)
Theorem C120_idle : forall (F : Field) mp r c n b, (0 < r)%nat -> (n <= r)%nat ->
  sponge_evaluate (mkSponge mp r c) [] n b = Ok (repeat e_zero n, b).
Proof.
  intros F mp r c n b Hr Hn. unfold sponge_evaluate, chunks. cbn [bitrate capacity]. destruct (Nat.eqb_spec r 0); [lia|].
  unfold bbind, blift, bret. cbn [length chunks_fuel obind bfold]. unfold bret.
  replace (sponge_squeeze n (mkSponge mp r c) (repeat e_zero r) (repeat e_zero c) (repeat e_zero r) n b) with (Ok (repeat e_zero r, b)).
  - cbn [obind]. repeat f_equal. replace r with (n + (r - n))%nat by lia. rewrite repeat_app, firstn_app, repeat_length, Nat.sub_diag, app_nil_r.
    apply firstn_all2. rewrite repeat_length. lia.
  - destruct n; cbn [sponge_squeeze]; rewrite repeat_length; rewrite (proj2 (Nat.ltb_ge _ _)) by exact Hn; reflexivity.
Qed.
Print Assumptions C120_idle.

(** With at least as many rows as lanes both sponges compute the sponge function and every honest run succeeds. *)
Theorem C120_enough_poseidon : forall (F : Field), prime order -> 2 < order -> forall p r c, (0 < r)%nat -> (r + c = pos_width p)%nat ->
  (pos_width p <= length (pos_mds p))%nat -> (pos_full p mod 2 = 0)%nat -> sbox_available (pos_sbox p) ->
  forall vals inputs n, good_inputs vals -> on_inputs_all vals inputs ->
  runs vals (sponge_evaluate (mkSponge (poseidon_mp p) r c) inputs n) (fun res v => omap (e_evaluate v) res =
    Ok (sponge_fun (poseidon_fun (sbox_fun (pos_sbox p)) (pos_full p) (pos_partial p) (pos_mds p)) r c (map (ev (input_witness vals)) inputs) n)).
Proof.
  intros F Hp H2 p r c Hr W Hm Ev A vals inputs n Hv Hi. apply (to_runsl Hp); [exact Hv|].
  apply (cmpl_sponge Hp (mkSponge (poseidon_mp p) r c)); cbn [bitrate capacity sp_perm poseidon_mp mp_permute]; [|exact Hr| |apply hasl_input, Hi].
  - intros l L. rewrite <- L in *. unfold poseidon_fun. revert L W Hm. generalize (seq 0 (pos_full p + pos_partial p)) as rs. intro rs.
    revert l. induction rs as [|k rs IH]; intros l L W Hm; cbn [fold_left]; [reflexivity|].
    match goal with |- length (fold_left _ _ ?t) = _ => assert (K : length t = length l) end.
    { rewrite row_scale_length. destruct (full_round _ _ _); [rewrite map_length|rewrite on_first_length]; lia. }
    rewrite IH; lia.
  - intros D P s xs l Lx Hl. apply (cmpl_poseidon Hp); auto; try lia. apply (completes1_sbox Hp); assumption.
Qed.
Print Assumptions C120_enough_poseidon.

Theorem C120_enough_rescue : forall (F : Field), prime order -> forall q, 2 <= res_alpha q < order -> Z.gcd (order - 1) (res_alpha q) = 1 ->
  exists g : Z -> Z, (forall a, 0 <= a < order -> 0 <= g a < order /\ (g a ^ res_alpha q) mod order = a) /\
  let G := rescue_fun (fun a => (a ^ res_alpha q) mod order) g (res_rounds q) (res_mds q) in
  (forall r c inputs n, sound_call (sponge_evaluate (mkSponge (rescue_mp q) r c) inputs n) (fun w res =>
     length res = n /\ map (ev w) res = sponge_fun G r c (map (ev w) inputs) n)) /\
  (forall r c vals inputs n, (0 < r)%nat -> (r + c <= length (res_mds q))%nat -> good_inputs vals -> on_inputs_all vals inputs ->
     runs vals (sponge_evaluate (mkSponge (rescue_mp q) r c) inputs n) (fun res v => omap (e_evaluate v) res =
       Ok (sponge_fun G r c (map (ev (input_witness vals)) inputs) n))).
Proof.
  intros F Hp q Ha Hg. destruct (rescue_sboxes Hp q Ha Hg) as (g & R & C1 & C2 & C3 & C4). exists g. split; [|intro G; split].
  - intros a Ia. destruct (R a Ia) as (A & _ & B). auto.
  - intros r c inputs n. apply (C47_value F Hp (mkSponge (rescue_mp q) r c) G). cbn [sp_perm rescue_mp mp_permute bitrate capacity].
    split; [intro; apply mono_rescue|]. intros xs _. apply to_call. intros w Hw.
    apply (snd_rescue Hp); [exact Hw| |]; intro x; [apply (computes1_snd (rescue_pi1 q) (fun a => (a ^ res_alpha q) mod order))|apply computes1_snd]; assumption.
  - intros r c vals inputs n Hr Hm Hv Hi. apply (to_runsl Hp); [exact Hv|].
    apply (cmpl_sponge Hp (mkSponge (rescue_mp q) r c)); cbn [bitrate capacity sp_perm rescue_mp mp_permute]; [|exact Hr| |apply hasl_input, Hi].
    + intros l L. unfold G, rescue_fun. revert l L. generalize (seq 0 (res_rounds q)) as rs. intro rs.
      induction rs as [|k rs IH]; intros l L; cbn [fold_left]; [exact L|]. apply IH. rewrite row_scale_length, map_length, row_scale_length, map_length. lia.
    + intros D P s xs l _ Hl. apply (cmpl_rescue Hp); assumption.
Qed.
Print Assumptions C120_enough_rescue.

(** Rows beyond the width change nothing: the circuit is the one of the matrix cut to the width. *)
Theorem C120_extra : forall (F : Field) xs b,
  (forall w full partial sb m, poseidon_permute (mkPoseidon w full partial sb m) xs b =
     poseidon_permute (mkPoseidon w full partial sb (firstn w m)) xs b) /\
  (forall w alpha n m, length xs = w -> rescue_permute (mkRescue w alpha n m) xs b = rescue_permute (mkRescue w alpha n (firstn w m)) xs b).
Proof.
  intros F xs b. split.
  - intros w full partial sb m. destruct (Nat.leb_spec (length m) w) as [L|L]; [rewrite firstn_all2 by exact L; reflexivity|].
    unfold poseidon_permute. cbn [pos_width pos_full pos_partial pos_sbox pos_mds]. unfold bbind at 1 4, blift at 1 3.
    destruct (Nat.eqb_spec (length xs) w) as [W|]; cbn [oassert obind]; [|reflexivity].
    unfold bbind at 1 3, blift at 1 2. destruct (full mod 2 =? 0)%nat; cbn [oassert obind]; [|reflexivity].
    apply (bfold_cong (fun s => length s = w)); [| |exact W].
    + intros s a b0 Hs. unfold bbind, poseidon_full_round. cbn [pos_full pos_partial].
      match goal with |- match ?t with _ => _ end = _ => destruct t as [[s1 b1]| |] eqn:E; [|reflexivity..] end.
      assert (L1 : length s1 = w).
      { rewrite <- Hs. match type of E with (if ?c then _ else _) _ = _ => destruct c end;
        [exact (bmap_length _ _ _ _ _ E)|exact (update_first_len _ _ _ _ _ E)]. }
      rewrite <- L1, matrix_mul_firstn. reflexivity.
    + intros s a b0 s' b0' Hs E. rewrite (poseidon_round_len (mkPoseidon w full partial sb m) _ _ _ _ _ E). cbn [pos_mds]. lia.
  - intros w alpha n m W. destruct (Nat.leb_spec (length m) w) as [L|L]; [rewrite firstn_all2 by exact L; reflexivity|].
    unfold rescue_permute. cbn [res_rounds res_mds]. apply (bfold_cong (fun s => length s = w)); [| |exact W].
    + intros s a b0 Hs. unfold bbind. change (rescue_pi1 (mkRescue w alpha n (firstn w m))) with (rescue_pi1 (mkRescue w alpha n m)).
      change (rescue_pi2 (mkRescue w alpha n (firstn w m))) with (rescue_pi2 (mkRescue w alpha n m)).
      destruct (bmap (rescue_pi1 (mkRescue w alpha n m)) s b0) as [[s1 b1]| |] eqn:E; [|reflexivity..].
      assert (L1 : length s1 = w) by (rewrite <- Hs; exact (bmap_length _ _ _ _ _ E)).
      replace (matrix_mul (firstn w m) s1) with (matrix_mul m s1) by (rewrite <- L1, matrix_mul_firstn; reflexivity).
      destruct (bmap (rescue_pi2 (mkRescue w alpha n m)) (matrix_mul m s1) b1) as [[s2 b2]| |] eqn:E2; [|reflexivity..].
      assert (L2 : length s2 = w) by (rewrite (bmap_length _ _ _ _ _ E2), matrix_mul_len; lia).
      rewrite <- L2, matrix_mul_firstn. reflexivity.
    + intros s a b0 s' b0' Hs E. rewrite (rescue_round_len (mkRescue w alpha n m) _ _ _ _ E). cbn [res_mds]. lia.
Qed.
Print Assumptions C120_extra.

(** The declared width: Poseidon refuses a state of another length (poseidon.rs 135); Rescue never looks at it (rescue.rs 37-47), so that
    what is returned for a state of any length is what a Rescue declared with that length returns. *)
Theorem C120_width : forall (F : Field) xs b,
  (forall p, length xs <> pos_width p -> poseidon_permute p xs b = Panic) /\
  (forall w alpha n m, rescue_permute (mkRescue w alpha n m) xs b = rescue_permute (mkRescue (length xs) alpha n m) xs b) /\
  (forall q, prime order -> 2 <= res_alpha q < order -> Z.gcd (order - 1) (res_alpha q) = 1 ->
     forall vals, good_inputs vals -> on_inputs_all vals xs -> (0 < res_rounds q)%nat ->
     runs vals (rescue_permute q xs) (fun ys _ => length ys = Nat.min (length (res_mds q)) (length xs))).
Proof.
  intros F xs b. split; [|split].
  - intros p H. unfold poseidon_permute, bbind, blift. destruct (Nat.eqb_spec (length xs) (pos_width p)); [contradiction|reflexivity].
  - reflexivity.
  - intros q Hp Ha Hg vals Hv Hi Hr. destruct (C49_rescue_value F Hp q Ha Hg) as (g & _ & _ & H). specialize (H vals xs Hv Hi).
    intros v0 Hv0. destruct (H v0 Hv0) as (ws & b0 & r & b' & v & E1 & E2 & E3 & E4 & _). exists ws, b0, r, b', v.
    repeat (split; [assumption|]). exact (rescue_len _ _ _ _ _ Hr E2).
Qed.
Print Assumptions C120_width.

(** Width 3 with two rows, Poseidon with x^5 over 97: two lanes come back, and the sponge panics; a fourth row is ignored. *)
Example C120_example : let F : Field := F97 in
  (exists r b', poseidon_permute (mkPoseidon 3 2 0 Exponentiation5 [[2; 1; 1]; [1; 2; 1]]) [e_one; e_one; e_one] b_new = Ok (r, b') /\
     length r = 2%nat) /\
  sponge_evaluate (mkSponge (poseidon_mp (mkPoseidon 3 2 0 Exponentiation5 [[2; 1; 1]; [1; 2; 1]])) 2 1) [e_one] 1 b_new = Panic /\
  firstn 3 [[2; 1; 1]; [1; 2; 1]; [1; 1; 3]; [5; 5; 5]] = [[2; 1; 1]; [1; 2; 1]; [1; 1; 3]].
Proof. intro F. split; [|split; [cbv; reflexivity|reflexivity]]. eexists _, _. split; [cbv; reflexivity|reflexivity]. Qed.
(** Rescue with x^5 over 97, two lanes and three rows, in a sponge of rate 1: runs, and the hypotheses hold. *)
Example C120_rescue_example : let F : Field := F97 in let q := mkRescue 2 5 1 [[2; 1]; [1; 3]; [7; 7]] in
  2 <= res_alpha q < order /\ Z.gcd (order - 1) (res_alpha q) = 1 /\ (1 + 1 <= length (res_mds q))%nat /\
  (exists v, demo [5; 6] (sponge_evaluate (mkSponge (rescue_mp q) 1 1) [e_wire 1; e_wire 2] 1) (fun r => r) = Ok (true, v)) /\
  sponge_evaluate (mkSponge (rescue_mp (mkRescue 2 5 1 [[2; 1]])) 1 1) [] 1 b_new = Ok ([e_zero], b_new).
Proof. cbv zeta. split; [cbv; split; [discriminate|reflexivity]|]. split; [reflexivity|]. split; [cbn; lia|]. split; [eexists; vm_compute; reflexivity|reflexivity]. Qed.
