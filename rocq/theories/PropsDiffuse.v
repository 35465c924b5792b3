(** Poseidon with a matrix that mixes.

    The product of matrices.rs 31-51 is not the matrix product (C48), so the lanes of Poseidon never meet (C49).  A
    client can write the rounds of poseidon.rs 133-158 with the product the documentation means, over the library's
    S-boxes, and use the result as a permutation of the library's sponge. *)
From Coq Require Import ZArith List Bool Arith Lia Znumtheory.
From Verif Require Import Base FieldM FieldP ExprM BuilderM GadgetsM CryptoM Spec SpecCrypto SpecCurve ExprP BitsP MonoP LocalP
  SoundP CmpP GadgetSoundP HonestP ExecP CoreP CompleteP CmpCompleteP GadgetCompleteP PropLib CryptoP SpongeP MatrixP EdwardsP Demo
  PropsCrypto PropsMix.
Import ListNotations.
Open Scope Z_scope.
Local Notation wv vals := (ev (input_witness vals)).

(** component i is the sum over j of m[i][j] * v[j] *)
Definition true_mul {F : Field} (rows : list (list Z)) (xs : list expr) : list expr :=
  map (fun row => fold_left (fun sum cx => e_add sum (e_scale (snd cx) (fst cx))) (combine row xs) e_zero) rows.
(** poseidon.rs 133-158 with that product *)
Definition mixing_permute {F : Field} (p : poseidon) (inputs : list expr) : B (list expr) :=
  blift (oassert (length inputs =? pos_width p)%nat) ;;
  blift (oassert (pos_full p mod 2 =? 0)%nat) ;;
  bfold (fun current round =>
      subbed <- (if poseidon_full_round p round then bmap (sbox_permute (pos_sbox p)) current
                 else update_first (sbox_permute (pos_sbox p)) current) ;;
      bret (true_mul (pos_mds p) subbed))
    (seq 0 (pos_full p + pos_partial p)) inputs.
(** one round and all rounds, on values *)
Definition mixing_round {F : Field} (f : Z -> Z) (full part : nat) (mds : list (list Z)) (r : nat) (l : list Z) : list Z :=
  mat_vec mds (if full_round full part r then map f l else on_first f l).
Definition mixing_fun {F : Field} (f : Z -> Z) (full part : nat) (mds : list (list Z)) (l : list Z) : list Z :=
  fold_left (fun cur r => mixing_round f full part mds r cur) (seq 0 (full + part)) l.

Section Diffuse.
Context {F : Field} (Hp : prime order).
Let Hord : 2 <= order := prime_ge2 Hp.
Local Notation dot row v := (row_sum (map (fun xy => fst xy * snd xy) (combine row v))).

Lemma ev_dot w row xs : ev w (fold_left (fun sum cx => e_add sum (e_scale (snd cx) (fst cx))) (combine row xs) e_zero) =
  dot row (map (ev w) xs) mod order.
Proof using Hp.
  assert (G : forall row xs z, ev w (fold_left (fun sum cx => e_add sum (e_scale (snd cx) (fst cx))) (combine row xs) z) =
    (ev w z + dot row (map (ev w) xs)) mod order).
  { clear row xs. induction row as [|c row IH]; intros [|x xs] z; cbn [combine map fold_left row_sum fold_right]; try (rewrite Z.add_0_r; symmetry; apply (ev_mod Hp)).
    cbn [fst snd]. fold (row_sum (map (fun xy => fst xy * snd xy) (combine row (map (ev w) xs)))).
    rewrite IH, (ev_add_mod Hp), (ev_scale_mod Hp), Zplus_mod_idemp_r, Zplus_mod_idemp_l. f_equal. ring. }
  rewrite G, (ev_zero_ Hp). reflexivity.
Qed.
Lemma ev_true_mul w rows xs : map (ev w) (true_mul rows xs) = mat_vec rows (map (ev w) xs).
Proof using Hp. unfold true_mul, mat_vec. rewrite map_map. apply map_ext. intro row. apply ev_dot. Qed.

Lemma has_dot s row xs l : hasl s xs l ->
  has s (fold_left (fun sum cx => e_add sum (e_scale (snd cx) (fst cx))) (combine row xs) e_zero) (dot row l mod order).
Proof using Hp.
  assert (G : forall row xs l z b, hasl s xs l -> has s z b ->
    has s (fold_left (fun sum cx => e_add sum (e_scale (snd cx) (fst cx))) (combine row xs) z) ((b + dot row l) mod order)).
  { clear row xs l. induction row as [|c row IH]; intros xs l z b Hl Hz.
    - cbn. rewrite Z.add_0_r, Z.mod_small by (eapply (has_infield Hp); eauto). exact Hz.
    - destruct Hl as [|x a xs l Hx Hl]; cbn [combine map fold_left row_sum fold_right fst snd].
      + rewrite Z.add_0_r, Z.mod_small by (eapply (has_infield Hp); eauto). exact Hz.
      + fold (row_sum (map (fun xy => fst xy * snd xy) (combine row l))).
        eapply has_eq; [apply IH; [exact Hl|apply (has_add Hp); [exact Hz|apply (has_scale Hp); exact Hx]]|].
        rewrite Zplus_mod_idemp_r, Zplus_mod_idemp_l. f_equal. ring. }
  intro Hl. exact (G row xs l e_zero 0 Hl (has_zero Hp s)).
Qed.
Lemma hasl_true_mul s rows xs l : hasl s xs l -> hasl s (true_mul rows xs) (mat_vec rows l).
Proof using Hp.
  intro Hl. unfold true_mul, mat_vec. induction rows as [|row rows IH]; cbn [map]; constructor; [apply has_dot; exact Hl|exact IH].
Qed.

Lemma mono_mixing_round p current round :
  mono (subbed <- (if poseidon_full_round p round then bmap (sbox_permute (pos_sbox p)) current
                   else update_first (sbox_permute (pos_sbox p)) current) ;;
        bret (true_mul (pos_mds p) subbed)).
Proof using Hp.
  apply mono_bind; [|intro; apply mono_ret].
  destruct (poseidon_full_round p round); [apply mono_bmap; intro; apply (mono_sbox Hp)|apply mono_update_first; intro; apply (mono_sbox Hp)].
Qed.
Lemma mono_mixing p xs : mono (mixing_permute p xs).
Proof using Hp.
  unfold mixing_permute. apply mono_bind; [apply mono_lift|intro]. apply mono_bind; [apply mono_lift|intro]. apply mono_bfold. intros. apply mono_mixing_round.
Qed.

Lemma snd_mixing p f w xs : wf_witness w -> computes1 (sbox_permute (pos_sbox p)) f ->
  sound w (mixing_permute p xs) (fun r => map (ev w) r = mixing_fun f (pos_full p) (pos_partial p) (pos_mds p) (map (ev w) xs)).
Proof using Hp.
  intros Hw Hf. unfold mixing_permute, mixing_fun.
  destruct (length xs =? pos_width p)%nat; [|intros b a b' E; discriminate].
  destruct (Nat.eqb_spec (pos_full p mod 2) 0) as [Ev|]; [|intros b a b' E; discriminate].
  eapply sound_bind with (Q := fun _ => True); [apply sound_true|intro; apply mono_bind; [apply mono_lift|intro; apply mono_bfold; intros]|].
  { apply mono_mixing_round. }
  intros _ _. eapply sound_bind with (Q := fun _ => True); [apply sound_true|intro; apply mono_bfold; intros|].
  { apply mono_mixing_round. }
  intros _ _. generalize (seq 0 (pos_full p + pos_partial p)) as rs. intro rs. revert xs. induction rs as [|r rs IH]; intro xs; cbn [bfold fold_left].
  - apply sound_ret. reflexivity.
  - eapply sound_bind with (Q := fun ys => map (ev w) ys = mixing_round f (pos_full p) (pos_partial p) (pos_mds p) r (map (ev w) xs)).
    + rewrite (full_round_eq p r Ev). unfold mixing_round.
      eapply sound_bind with (Q := fun ys => map (ev w) ys = if full_round (pos_full p) (pos_partial p) r then map f (map (ev w) xs) else on_first f (map (ev w) xs)); [|intro; apply mono_ret|].
      * destruct (full_round (pos_full p) (pos_partial p) r); [apply sound_bmap_ev|apply sound_first_ev]; try (intro; apply (mono_sbox Hp)); intro; apply computes1_snd; auto.
      * cbv beta. intros ys E. apply sound_ret. rewrite ev_true_mul, E. reflexivity.
    + intro. apply mono_bfold. intros. apply mono_mixing_round.
    + cbv beta. intros ys E. eapply sound_weaken; [apply IH|]. cbv beta. intros zs ->. rewrite E. reflexivity.
Qed.

Lemma mat_vec_length m l : length (mat_vec m l) = length m.
Proof using. unfold mat_vec. apply map_length. Qed.

Lemma cmpl_mixing D P s p f xs l : completes1 (sbox_permute (pos_sbox p)) f -> (pos_full p mod 2 = 0)%nat ->
  length xs = pos_width p -> (0 < pos_width p)%nat -> (0 < length (pos_mds p))%nat -> hasl s xs l ->
  comp D P s (mixing_permute p xs) (done P (fun r s' => hasl s' r (mixing_fun f (pos_full p) (pos_partial p) (pos_mds p) l))).
Proof using Hp.
  intros Hf Ev Lx W M Hl. unfold mixing_permute, mixing_fun. rewrite Lx, Nat.eqb_refl, Ev.
  eapply comp_liftb; [reflexivity|]. eapply comp_liftb; [reflexivity|].
  assert (L0 : (0 < length l)%nat) by (rewrite <- (hasl_length _ _ _ Hl); lia). clear Lx W.
  generalize (seq 0 (pos_full p + pos_partial p)) as rs. intro rs. revert s xs l Hl L0. induction rs as [|r rs IH]; intros s xs l Hl L0; cbn [bfold fold_left].
  - apply comp_ret. split; [reflexivity|exact Hl].
  - rewrite (full_round_eq p r Ev).
    eapply comp_bind with (Q := done P (fun ys s' => hasl s' ys (mixing_round f (pos_full p) (pos_partial p) (pos_mds p) r l))).
    + unfold mixing_round. set (l1 := if full_round (pos_full p) (pos_partial p) r then map f l else on_first f l).
      eapply comp_bind with (Q := done P (fun ys s' => hasl s' ys l1)).
      * unfold l1. destruct (full_round (pos_full p) (pos_partial p) r); [apply comp_bmap_has; auto|].
        destruct Hl as [|x a xs l Hx Hl]; [cbn in L0; lia|]. cbn [update_first on_first].
        eapply comp_bind; [apply Hf; exact Hx|]. intros y P1 s1 X1 G1 [-> Hy]. apply comp_ret. split; [reflexivity|]. constructor; [exact Hy|]. eapply hasl_ext; eauto.
      * intros ys P1 s1 X1 G1 [-> Hy]. apply comp_ret. split; [reflexivity|]. apply hasl_true_mul. exact Hy.
    + intros ys P1 s1 X1 G1 [-> Hy]. apply IH; [exact Hy|]. unfold mixing_round. rewrite mat_vec_length. lia.
Qed.

(** ** as a permutation *)
Lemma mat_vec_closed m : closed (length m) (mat_vec m).
Proof using Hp.
  intros l _. split; [apply mat_vec_length|]. unfold mat_vec. apply Forall_map, Forall_forall. intros row _. apply Z.mod_pos_bound. lia.
Qed.
Lemma layer_closed f full part r n : permutes f -> closed n (fun l => if full_round full part r then map f l else on_first f l).
Proof using. intros P l Hl. destruct (full_round full part r); [apply map_closed|apply first_closed]; try apply P; exact Hl. Qed.
Lemma layer_inj f full part r n : permutes f -> injective_on n (fun l => if full_round full part r then map f l else on_first f l).
Proof using. intros P a b Ha Hb E. destruct (full_round full part r); [eapply (map_inj f P n)|eapply (first_inj f P n)]; eauto. Qed.
Lemma layer_onto f full part r n : permutes f -> onto n (fun l => if full_round full part r then map f l else on_first f l).
Proof using. intros P b Hb. destruct (full_round full part r); [apply (map_onto f P n)|apply (first_onto f P n)]; exact Hb. Qed.

(** ** diffusion *)
Lemma dot_app r1 r2 v1 v2 : length r1 = length v1 -> dot (r1 ++ r2) (v1 ++ v2) = dot r1 v1 + dot r2 v2.
Proof using.
  revert v1. induction r1 as [|c r1 IH]; intros [|x v1] L; try discriminate; [reflexivity|].
  cbn [app combine map row_sum fold_right fst snd]. injection L as L. fold (row_sum (map (fun xy => fst xy * snd xy) (combine (r1 ++ r2) (v1 ++ v2)))).
  rewrite (IH v1 L). fold (row_sum (map (fun xy => fst xy * snd xy) (combine r1 v1))). ring.
Qed.
Lemma dot_differs row u x y v : length row = length (u ++ x :: v) -> Forall (fun c => c mod order <> 0) row ->
  0 <= x < order -> 0 <= y < order -> x <> y -> dot row (u ++ x :: v) mod order <> dot row (u ++ y :: v) mod order.
Proof using Hp.
  intros L Nz Hx Hy N E. rewrite app_length in L. cbn [length] in L.
  pose proof (firstn_skipn (length u) row) as S. destruct (skipn (length u) row) as [|c r2] eqn:Es.
  { pose proof (skipn_length (length u) row) as Q. rewrite Es in Q. cbn [length] in Q. lia. }
  assert (L1 : length (firstn (length u) row) = length u) by (rewrite firstn_length; lia).
  set (r1 := firstn (length u) row) in *. clearbody r1. subst row. rewrite !dot_app in E by exact L1.
  apply Forall_app in Nz. destruct Nz as [_ Nz]. apply Forall_cons_iff in Nz. destruct Nz as [Nc _].
  cbn [combine map row_sum fold_right fst snd] in E. fold (row_sum (map (fun xy => fst xy * snd xy) (combine r2 v))) in E.
  assert (D : (c * (x - y)) mod order = 0).
  { replace (c * (x - y)) with ((dot r1 u + (c * x + dot r2 v)) - (dot r1 u + (c * y + dot r2 v))) by ring.
    rewrite Zminus_mod, E, Z.sub_diag. apply Z.mod_0_l. lia. }
  apply Z.mod_divide in D; [|lia]. apply prime_mult in D; [|exact Hp]. destruct D as [D|D].
  - apply Nc. apply Z.mod_divide; [lia|exact D].
  - destruct D as [k D]. assert (- order < k * order < order) by lia. assert (k = 0) by nia. lia.
Qed.
End Diffuse.

(** ** C116 *)
(** The product is the matrix product, on expressions, in every assignment. *)
Theorem C116_product : forall (F : Field), prime order -> forall rows xs w, map (ev w) (true_mul rows xs) = mat_vec rows (map (ev w) xs).
Proof. intros F Hp rows xs w. apply (ev_true_mul Hp). Qed.
Print Assumptions C116_product.

(** The permutation computes its rounds, and so does the library's sponge over it. *)
Theorem C116_value : forall (F : Field), prime order -> forall p, pos_sbox p <> Inverse ->
  (forall xs, sound_call (mixing_permute p xs) (fun w r => map (ev w) r =
     mixing_fun (sbox_fun (pos_sbox p)) (pos_full p) (pos_partial p) (pos_mds p) (map (ev w) xs))) /\
  (forall inv r c inputs n, sound_call (sponge_evaluate (mkSponge (mkMP (pos_width p) (mixing_permute p) inv) r c) inputs n) (fun w res =>
     length res = n /\ map (ev w) res =
     sponge_fun (mixing_fun (sbox_fun (pos_sbox p)) (pos_full p) (pos_partial p) (pos_mds p)) r c (map (ev w) inputs) n)).
Proof.
  intros F Hp p N.
  assert (A : forall xs, sound_call (mixing_permute p xs) (fun w r => map (ev w) r =
     mixing_fun (sbox_fun (pos_sbox p)) (pos_full p) (pos_partial p) (pos_mds p) (map (ev w) xs))).
  { intro xs. apply to_call. intros w Hw. apply (snd_mixing Hp); [exact Hw|]. apply (computes1_sbox Hp). exact N. }
  split; [exact A|]. intros inv r c inputs n.
  apply (C47_value F Hp (mkSponge (mkMP (pos_width p) (mixing_permute p) inv) r c)). split; [intro; apply (mono_mixing Hp)|]. intros xs _. apply A.
Qed.
Print Assumptions C116_value.

Theorem C116_runs : forall (F : Field), prime order -> 2 < order -> forall p vals xs, poseidon_ok p ->
  good_inputs vals -> on_inputs_all vals xs -> length xs = pos_width p ->
  runs vals (mixing_permute p xs) (fun r v => omap (e_evaluate v) r =
    Ok (mixing_fun (sbox_fun (pos_sbox p)) (pos_full p) (pos_partial p) (pos_mds p) (map (wv vals) xs))).
Proof.
  intros F Hp H2 p vals xs (W & L & E & A) Hv Hx Lx. apply (to_runsl Hp); [exact Hv|].
  apply (cmpl_mixing Hp); auto; try lia; [apply (completes1_sbox Hp); assumption|apply hasl_input, Hx].
Qed.
Print Assumptions C116_runs.

(** It permutes the states exactly when the matrix does, whatever the row sums are. *)
Theorem C116_permutation_iff : forall (F : Field), prime order -> forall f full part mds, permutes f -> (0 < full + part)%nat ->
  let n := length mds in let G := mixing_fun f full part mds in
  closed n G /\ (injective_on n G <-> injective_on n (mat_vec mds)) /\ (onto n G <-> onto n (mat_vec mds)).
Proof.
  intros F Hp f full part mds P R n G.
  assert (RC : forall r, closed n (mixing_round f full part mds r)).
  { intros r l Hl. apply (mat_vec_closed Hp). apply (layer_closed f full part r n P l Hl). }
  split; [|split; split].
  - intros a Ha. unfold G, mixing_fun. apply fold_closed; [exact RC|exact Ha].
  - intros I a b Ha Hb E. destruct (layer_onto f full part 0 n P a Ha) as (a' & Ha' & Ea), (layer_onto f full part 0 n P b Hb) as (b' & Hb' & Eb).
    assert (a' = b') as ->.
    { apply I; [exact Ha'|exact Hb'|]. unfold G, mixing_fun. replace (full + part)%nat with (S (full + part - 1)) by lia. cbn [seq fold_left]. f_equal.
      unfold mixing_round. rewrite Ea, Eb. exact E. }
    congruence.
  - intros I a b Ha Hb. unfold G, mixing_fun. apply fold_inj with (n := n); auto.
    intros r x y Hx Hy E. apply (layer_inj f full part r n P x y Hx Hy). apply I; [apply (layer_closed f full part r n P x Hx)|apply (layer_closed f full part r n P y Hy)|exact E].
  - intros O b Hb. destruct (O b Hb) as (a & Ha & E). unfold G, mixing_fun in E.
    replace (full + part)%nat with (S (full + part - 1)) in E by lia. rewrite seq_S, fold_left_app in E. cbn [fold_left] in E.
    unfold mixing_round at 1 in E. eexists. split; [|exact E]. apply (layer_closed f full part _ n P). apply fold_closed; [exact RC|exact Ha].
  - intros O. unfold G, mixing_fun. intros b Hb. apply (fold_onto (mixing_round f full part mds) n); [|exact Hb]. intros r c Hc.
    destruct (O c Hc) as (d & Hd & E). destruct (layer_onto f full part r n P d Hd) as (e & He & E'). exists e. split; [exact He|]. unfold mixing_round. rewrite E'. exact E.
Qed.
Print Assumptions C116_permutation_iff.

(** If no entry of the matrix is zero, a change of any one lane changes every lane within one round. *)
Theorem C116_diffusion : forall (F : Field), prime order -> forall f full part mds r u x y v k, permutes f ->
  Forall (fun row => length row = length mds /\ Forall (fun c => c mod order <> 0) row) mds ->
  state (length mds) (u ++ x :: v) -> 0 <= y < order -> x <> y -> (k < length mds)%nat ->
  nth_error (mixing_round f full part mds r (u ++ x :: v)) k <> nth_error (mixing_round f full part mds r (u ++ y :: v)) k.
Proof.
  intros F Hp f full part mds r u x y v k (PC & PI & _) Hm [L R] Hy N Hk.
  apply Forall_app in R. destruct R as [_ R]. apply Forall_cons_iff in R. destruct R as [Hx _].
  assert (exists u' x' y' v', length u' = length u /\ length v' = length v /\ 0 <= x' < order /\ 0 <= y' < order /\ x' <> y' /\
    (if full_round full part r then map f (u ++ x :: v) else on_first f (u ++ x :: v)) = u' ++ x' :: v' /\
    (if full_round full part r then map f (u ++ y :: v) else on_first f (u ++ y :: v)) = u' ++ y' :: v') as (u' & x' & y' & v' & Lu & Lv & Hx' & Hy' & N' & Ex & Ey).
  { destruct (full_round full part r).
    - exists (map f u), (f x), (f y), (map f v). rewrite !map_length, !map_app. cbn [map]. repeat split; try apply PC; auto.
    - destruct u as [|h u]; cbn [app on_first].
      + exists [], (f x), (f y), v. repeat split; try apply PC; auto.
      + exists (f h :: u), x, y, v. repeat split; auto; lia. }
  unfold mixing_round. rewrite Ex, Ey. unfold mat_vec. rewrite !nth_error_map.
  destruct (nth_error mds k) as [row|] eqn:Er; [|apply nth_error_None in Er; lia]. cbn [option_map].
  apply nth_error_In in Er. rewrite Forall_forall in Hm. destruct (Hm row Er) as [Lr Nz]. intro E. injection E as E. revert E.
  apply (dot_differs Hp); auto. rewrite Lr, <- L, !app_length. cbn [length]. lia.
Qed.
Print Assumptions C116_diffusion.

(** The matrix over F_97 below has no zero entry and an inverse; the library's product with it maps both states to
    results that agree in two lanes of three, the matrix product to results that agree in none.  A matrix with a row
    summing to zero, useless to the library (C75), is fine here. *)
Example C116_example : let F : Field := F97 in
  let m := [[2; 1; 1]; [1; 2; 1]; [1; 1; 3]] in let p := mkPoseidon 3 2 1 Exponentiation5 m in
  poseidon_ok p /\ row_scale m [5; 6; 7] = [20; 24; 35] /\ row_scale m [5; 6; 8] = [20; 24; 40] /\
  mat_vec m [5; 6; 7] = [23; 24; 32] /\ mat_vec m [5; 6; 8] = [24; 25; 35] /\
  demo [5; 6; 7] (mixing_permute p [e_wire 1; e_wire 2; e_wire 3]) (fun r => r) =
    Ok (true, mixing_fun (fun a => (a ^ 5) mod 97) 2 1 m [5; 6; 7]).
Proof. intros F m p. split; [vm_compute; repeat split; lia|]. repeat split; vm_compute; reflexivity. Qed.
Example C116_example_inverse : let F : Field := F97 in
  injective_on 2 (mat_vec [[1; 96]; [1; 1]]) /\ ~ rows_usable [[1; 96]; [1; 1]].
Proof.
  intro F. split.
  - intros a b Ha Hb E. apply state_S in Ha. destruct Ha as (x & ? & -> & Hx & Ha). apply state_S in Ha. destruct Ha as (y & ? & -> & Hy & Ha). apply state_0 in Ha. subst.
    apply state_S in Hb. destruct Hb as (z & ? & -> & Hz & Hb). apply state_S in Hb. destruct Hb as (t & ? & -> & Ht & Hb). apply state_0 in Hb. subst.
    unfold mat_vec in E. cbn [map combine fst snd row_sum fold_right] in E. change order with 97 in *.
    assert (E1 : (1 * x + (96 * y + 0)) mod 97 = (1 * z + (96 * t + 0)) mod 97) by congruence.
    assert (E2 : (1 * x + (1 * y + 0)) mod 97 = (1 * z + (1 * t + 0)) mod 97) by congruence.
    Z.div_mod_to_equations. assert (x = z /\ y = t) as [-> ->] by lia. reflexivity.
  - intro U. inversion U as [|? ? U1 _]. apply U1. reflexivity.
Qed.
