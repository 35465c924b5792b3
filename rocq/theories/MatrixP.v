(** Proofs about matrices.rs, poseidon.rs and rescue.rs. *)
From Coq Require Import ZArith List Bool Arith Lia Znumtheory Permutation.
From Verif Require Import Base FieldM FieldP ExprM BuilderM GadgetsM CryptoM Spec SpecCrypto ExprP BitsP MonoP LocalP
  SoundP CmpP GadgetSoundP HonestP ExecP CoreP CompleteP CmpCompleteP GadgetCompleteP PropLib CryptoP SpongeP.
Import ListNotations.
Open Scope Z_scope.

Section Matrix.
Context {F : Field} (Hp : prime order).
Let Hord : 2 <= order := prime_ge2 Hp.

Lemma ev_row w x row : ev w (fold_left (fun sum c => e_add sum (e_scale x c)) row e_zero) = (ev w x * row_sum row) mod order.
Proof using Hp.
  assert (G : forall row z, ev w (fold_left (fun sum c => e_add sum (e_scale x c)) row z) = (ev w z + ev w x * row_sum row) mod order).
  { clear row. induction row as [|c row IH]; intro z; cbn [fold_left row_sum fold_right].
    - rewrite Z.mul_0_r, Z.add_0_r. symmetry. apply (ev_mod Hp).
    - fold (row_sum row). rewrite IH, (ev_add_mod Hp), (ev_scale_mod Hp). rewrite Zplus_mod_idemp_r. zmod. f_equal. ring. }
  rewrite G, (ev_zero_ Hp). reflexivity.
Qed.

Lemma ev_matrix_mul w rows xs : map (ev w) (matrix_mul rows xs) = row_scale rows (map (ev w) xs).
Proof using Hp.
  unfold matrix_mul, row_scale. rewrite map_map. revert xs. induction rows as [|r rows IH]; intros [|x xs]; try reflexivity.
  cbn [combine map fst snd]. rewrite IH, ev_row. reflexivity.
Qed.

Lemma has_row s x a row : has s x a -> has s (fold_left (fun sum c => e_add sum (e_scale x c)) row e_zero) ((a * row_sum row) mod order).
Proof using Hp.
  intro Hx. assert (G : forall row z b, has s z b -> has s (fold_left (fun sum c => e_add sum (e_scale x c)) row z) ((b + a * row_sum row) mod order)).
  { clear row. induction row as [|c row IH]; intros z b Hz; cbn [fold_left row_sum fold_right].
    - eapply has_eq; [exact Hz|]. rewrite Z.mul_0_r, Z.add_0_r. symmetry. apply Z.mod_small. eapply (has_infield Hp); eauto.
    - fold (row_sum row). eapply has_eq; [apply IH; apply (has_add Hp); [exact Hz|apply (has_scale Hp); exact Hx]|]. rewrite Zplus_mod_idemp_r. zmod. f_equal. ring. }
  exact (G row e_zero 0 (has_zero Hp s)).
Qed.

Lemma hasl_matrix_mul s rows : forall xs l, hasl s xs l -> hasl s (matrix_mul rows xs) (row_scale rows l).
Proof using Hp.
  unfold matrix_mul, row_scale. induction rows as [|r rows IH]; intros xs l H; [constructor|].
  destruct H as [|x a xs l Hx Hl]; cbn [combine map]; constructor; cbn [fst snd]; [apply has_row; exact Hx|apply IH; exact Hl].
Qed.

Lemma matrix_mul_elements_spec rows l : Forall infield l -> matrix_mul_elements rows l = row_scale rows l.
Proof using Hp.
  intro H. unfold matrix_mul_elements, row_scale. revert l H. induction rows as [|r rows IH]; intros [|a l] H; try reflexivity.
  inversion H; subst. cbn [combine map fst snd]. rewrite IH by assumption. f_equal.
  assert (G : forall row z, infield z -> fold_left (fun sum c => fadd sum (fmul a c)) row z = (z + a * row_sum row) mod order).
  { clear r IH. induction row as [|c row IHr]; intros z Iz; cbn [fold_left row_sum fold_right].
    - rewrite Z.mul_0_r, Z.add_0_r. symmetry. apply Z.mod_small, Iz.
    - fold (row_sum row). rewrite IHr by (apply infield_add; lia). unfold fadd, fmul. rewrite Zplus_mod_idemp_r. zmod. f_equal. ring. }
  rewrite G by (unfold fzero; apply infield_0; lia). reflexivity.
Qed.

(** Component i of the product the code computes. *)
Lemma row_scale_nth rows l i : nth_error (row_scale rows l) i =
  match nth_error rows i, nth_error l i with
  | Some row, Some a => Some ((a * row_sum row) mod order)
  | _, _ => None
  end.
Proof using.
  unfold row_scale. revert rows l. induction i as [|i IH]; intros [|r rows] [|a l]; cbn [combine map nth_error fst snd]; try reflexivity.
  - destruct (nth_error rows i); reflexivity.
  - apply IH.
Qed.

(** The computed product is the mathematical one for all vectors only if the matrix is diagonal. *)
Definition unit_vec (n j : nat) : list Z := map (fun k => if (k =? j)%nat then 1 else 0) (seq 0 n).

Lemma row_sum_unit row j : forall a, row_sum (map (fun xy => fst xy * snd xy) (combine row (map (fun k => if (k =? j)%nat then 1 else 0) (seq a (length row))))) =
  if ((a <=? j) && (j <? a + length row))%nat then nth (j - a) row 0 else 0.
Proof using.
  induction row as [|x row IH]; intro a; cbn [length seq map combine row_sum fold_right].
  - rewrite Nat.add_0_r. destruct (Nat.leb_spec a j), (Nat.ltb_spec j a); cbn; try lia; reflexivity.
  - fold (row_sum (map (fun xy : Z * Z => fst xy * snd xy) (combine row (map (fun k => if (k =? j)%nat then 1 else 0) (seq (S a) (length row)))))).
    rewrite IH. cbn [fst snd]. destruct (Nat.eqb_spec a j) as [->|N].
    + rewrite Nat.leb_refl, Nat.sub_diag. destruct (Nat.leb_spec (S j) j); [lia|]. destruct (Nat.ltb_spec j (j + S (length row))); [|lia]. cbn [andb]. cbn [nth]. ring.
    + destruct (Nat.leb_spec (S a) j), (Nat.leb_spec a j), (Nat.ltb_spec j (S a + length row)), (Nat.ltb_spec j (a + S (length row))); try lia; cbn [andb]; try ring.
      replace (j - a)%nat with (S (j - S a)) by lia. cbn [nth]. ring.
Qed.

Lemma matrix_correct_diagonal rows n : length rows = n -> Forall (fun row => length row = n) rows ->
  (forall v, length v = n -> Forall infield v -> matrix_mul_elements rows v = mat_vec rows v) ->
  forall i j, (i < n)%nat -> (j < n)%nat -> i <> j -> (nth j (nth i rows []) 0) mod order = 0.
Proof using Hp.
  intros Ln Hr Hc i j Hi Hj Hij.
  assert (Lu : length (unit_vec n j) = n) by (unfold unit_vec; rewrite map_length, seq_length; reflexivity).
  assert (Iu : Forall infield (unit_vec n j)).
  { unfold unit_vec. apply Forall_map, Forall_forall. intros k _. destruct (k =? j)%nat; [apply infield_1|apply infield_0]; lia. }
  specialize (Hc _ Lu Iu). rewrite matrix_mul_elements_spec in Hc by exact Iu. apply (f_equal (fun l => nth_error l i)) in Hc.
  rewrite row_scale_nth in Hc. unfold mat_vec in Hc. rewrite nth_error_map in Hc.
  destruct (nth_error rows i) as [row|] eqn:Er; [|apply nth_error_None in Er; lia].
  rewrite (nth_error_nth rows i [] Er).
  assert (Lr : length row = n). { apply nth_error_In in Er. rewrite Forall_forall in Hr. apply Hr, Er. }
  assert (Eu : nth_error (unit_vec n j) i = Some 0).
  { unfold unit_vec. rewrite nth_error_map. assert (Es : nth_error (seq 0 n) i = Some i).
    { rewrite nth_error_nth' with (d := 0%nat) by (rewrite seq_length; exact Hi). rewrite seq_nth by exact Hi. reflexivity. }
    rewrite Es. cbn [option_map]. destruct (Nat.eqb_spec i j); [contradiction|reflexivity]. }
  rewrite Eu in Hc. cbn [option_map] in Hc. injection Hc as Hc. unfold unit_vec in Hc. rewrite <- Lr, row_sum_unit in Hc.
  rewrite Lr in Hc. destruct (Nat.leb_spec 0 j), (Nat.ltb_spec j (0 + n)); try lia. cbn [andb] in Hc. rewrite Nat.sub_0_r in Hc.
  rewrite <- Hc. try rewrite Z.mul_0_l. apply Z.mod_0_l. lia.
Qed.

(** ** S-boxes *)
Definition sbox_fun (sb : poseidon_sbox) (a : Z) : Z :=
  match sb with
  | Exponentiation3 => (a ^ 3) mod order
  | Exponentiation5 => (a ^ 5) mod order
  | Inverse => finvv a
  end.

Lemma sbox_cases sb x b : sbox_permute sb x b = Panic \/
  sbox_permute sb x b = match sb with Exponentiation3 => exponentiation x 3 b | Exponentiation5 => exponentiation x 5 b | Inverse => inverse_or_zero x b end.
Proof using Hp.
  destruct sb; unfold sbox_permute, sbox_to_permutation, bbind, blift.
  - unfold el_from. destruct (Z.ltb_spec 3 order); cbn [obind]; [|left; reflexivity]. rewrite (monomial_new_ok Hp) by (unfold infield; lia).
    destruct (Z.gcd (order - 1) 3 =? 1); cbn [obind]; [right|left]; reflexivity.
  - unfold el_from. destruct (Z.ltb_spec 5 order); cbn [obind]; [|left; reflexivity]. rewrite (monomial_new_ok Hp) by (unfold infield; lia).
    destruct (Z.gcd (order - 1) 5 =? 1); cbn [obind]; [right|left]; reflexivity.
  - right. reflexivity.
Qed.

Lemma mono_sbox sb x : mono (sbox_permute sb x).
Proof using Hp.
  intros b a b' E. destruct (sbox_cases sb x b) as [C|C]; rewrite C in E; [discriminate|].
  destruct sb; [eapply mono_exponentiation; eauto|eapply mono_exponentiation; eauto|eapply mono_inverse_or_zero; eauto].
Qed.

Lemma computes1_sbox sb : sb <> Inverse -> computes1 (sbox_permute sb) (sbox_fun sb).
Proof using Hp.
  intro N. split; [apply mono_sbox|]. intros x b r b' w E Hw Hs.
  destruct (sbox_cases sb x b) as [C|C]; rewrite C in E; [discriminate|].
  destruct sb; [| |contradiction]; eapply (snd_exponentiation Hp w Hw); eauto; lia.
Qed.

Lemma completes1_sbox sb : 2 < order ->
  match sb with Exponentiation3 => 3 < order /\ Z.gcd (order - 1) 3 = 1 | Exponentiation5 => 5 < order /\ Z.gcd (order - 1) 5 = 1 | Inverse => True end ->
  completes1 (sbox_permute sb) (sbox_fun sb).
Proof using Hp.
  intros H2 H D P s x a Hx. unfold sbox_permute, sbox_to_permutation. destruct sb.
  - destruct H as [L G]. eapply comp_liftb.
    { rewrite el_from_ok by (unfold infield; lia). cbn [obind]. rewrite (monomial_new_ok Hp) by (unfold infield; lia). rewrite G. reflexivity. }
    apply (cmpl_exponentiation Hp); [lia|exact Hx].
  - destruct H as [L G]. eapply comp_liftb.
    { rewrite el_from_ok by (unfold infield; lia). cbn [obind]. rewrite (monomial_new_ok Hp) by (unfold infield; lia). rewrite G. reflexivity. }
    apply (cmpl_exponentiation Hp); [lia|exact Hx].
  - eapply comp_liftb; [reflexivity|]. apply (cmpl_inverse_or_zero Hp H2). exact Hx.
Qed.

(** ** Poseidon *)
Lemma mono_update_first f l : (forall x, mono (f x)) -> mono (update_first f l).
Proof using. intro M. destruct l; cbn [update_first]; [apply mono_lift|]. apply mono_bind; [apply M|intro; apply mono_ret]. Qed.

Lemma mono_pos_round p current round :
  mono (subbed <- (if poseidon_full_round p round then bmap (sbox_permute (pos_sbox p)) current
                   else update_first (sbox_permute (pos_sbox p)) current) ;;
        bret (matrix_mul (pos_mds p) subbed)).
Proof using Hp.
  apply mono_bind; [|intro; apply mono_ret].
  destruct (poseidon_full_round p round); [apply mono_bmap; intro; apply mono_sbox|apply mono_update_first; intro; apply mono_sbox].
Qed.

Lemma mono_poseidon p xs : mono (poseidon_permute p xs).
Proof using Hp.
  unfold poseidon_permute. do 2 (apply mono_bind; [apply mono_lift|intro]). apply mono_bfold. intros st r.
  apply mono_bind; [|intro; apply mono_ret].
  destruct (poseidon_full_round p r); [apply mono_bmap; intro; apply mono_sbox|apply mono_update_first; intro; apply mono_sbox].
Qed.

Lemma full_round_eq p r : (pos_full p mod 2 = 0)%nat -> poseidon_full_round p r = full_round (pos_full p) (pos_partial p) r.
Proof using.
  intro E. unfold poseidon_full_round, full_round. cbv zeta. f_equal. f_equal.
  pose proof (Nat.div_mod (pos_full p) 2 ltac:(lia)). lia.
Qed.

Lemma sound_bmap_ev w f g l : (forall x, mono (f x)) -> (forall x, sound w (f x) (fun r => ev w r = g (ev w x))) ->
  sound w (bmap f l) (fun rs => map (ev w) rs = map g (map (ev w) l)).
Proof using.
  intros M H. induction l as [|x l IH]; cbn [bmap map]; [apply sound_ret; reflexivity|].
  eapply sound_bind; [apply H|intro; apply mono_bind; [apply mono_bmap; exact M|intro; apply mono_ret]|]. cbv beta. intros r E.
  eapply sound_bind; [apply IH|intro; apply mono_ret|]. cbv beta. intros rs Es. apply sound_ret. cbn [map]. rewrite E, Es. reflexivity.
Qed.
Lemma sound_first_ev w f g l : (forall x, mono (f x)) -> (forall x, sound w (f x) (fun r => ev w r = g (ev w x))) ->
  sound w (update_first f l) (fun rs => map (ev w) rs = on_first g (map (ev w) l)).
Proof using.
  intros M H. destruct l as [|x l]; cbn [update_first]; [intros b a b' E; discriminate|].
  eapply sound_bind; [apply H|intro; apply mono_ret|]. cbv beta. intros r E. apply sound_ret. cbn [map on_first]. rewrite E. reflexivity.
Qed.

Lemma snd_poseidon p f w xs : wf_witness w -> computes1 (sbox_permute (pos_sbox p)) f ->
  sound w (poseidon_permute p xs) (fun r => map (ev w) r = poseidon_fun f (pos_full p) (pos_partial p) (pos_mds p) (map (ev w) xs)).
Proof using Hp.
  intros Hw Hf. unfold poseidon_permute, poseidon_fun.
  destruct (length xs =? pos_width p)%nat; [|intros b a b' E; discriminate].
  destruct (Nat.eqb_spec (pos_full p mod 2) 0) as [Ev|]; [|intros b a b' E; discriminate].
  eapply sound_bind with (Q := fun _ => True); [apply sound_true|intro; apply mono_bind; [apply mono_lift|intro; apply mono_bfold; intros]|].
  { apply mono_pos_round. }
  intros _ _. eapply sound_bind with (Q := fun _ => True); [apply sound_true|intro; apply mono_bfold; intros|].
  { apply mono_pos_round. }
  intros _ _. generalize (seq 0 (pos_full p + pos_partial p)) as rs. intro rs. revert xs. induction rs as [|r rs IH]; intro xs; cbn [bfold fold_left].
  - apply sound_ret. reflexivity.
  - eapply sound_bind with (Q := fun ys => map (ev w) ys = row_scale (pos_mds p) (if full_round (pos_full p) (pos_partial p) r then map f (map (ev w) xs) else on_first f (map (ev w) xs))).
    + rewrite (full_round_eq p r Ev).
      eapply sound_bind with (Q := fun ys => map (ev w) ys = if full_round (pos_full p) (pos_partial p) r then map f (map (ev w) xs) else on_first f (map (ev w) xs)); [|intro; apply mono_ret|].
      * destruct (full_round (pos_full p) (pos_partial p) r); [apply sound_bmap_ev|apply sound_first_ev]; try (intro; apply mono_sbox); intro; apply computes1_snd; auto.
      * cbv beta. intros ys E. apply sound_ret. rewrite ev_matrix_mul, E. reflexivity.
    + intro. apply mono_bfold. intros. apply mono_pos_round.
    + cbv beta. intros ys E. eapply sound_weaken; [apply IH|]. cbv beta. intros zs ->. rewrite E. reflexivity.
Qed.

Lemma comp_bmap_has D P f g : completes1 f g -> forall l s xs, hasl s xs l ->
  comp D P s (bmap f xs) (done P (fun rs s' => hasl s' rs (map g l))).
Proof using.
  intros Hf. induction l as [|a l IH]; intros s xs H; inversion H as [|x ? xs' ? Hx Hl]; subst; cbn [bmap map].
  - apply comp_ret. split; [reflexivity|constructor].
  - change (hasl s xs' l) in Hl. eapply comp_bind; [apply Hf; exact Hx|]. intros r P1 s1 X1 G1 [-> Hr]. carry.
    eapply comp_bind; [apply IH; exact Hl|]. intros rs P2 s2 X2 G2 [-> Hrs]. carry. apply comp_ret. split; [reflexivity|]. constructor; assumption.
Qed.

Lemma row_scale_length m l : length (row_scale m l) = Nat.min (length m) (length l).
Proof using. unfold row_scale. rewrite map_length, combine_length. reflexivity. Qed.

Lemma on_first_length f l : length (on_first f l) = length l.
Proof using. destruct l; reflexivity. Qed.

Lemma cmpl_poseidon D P s p f xs l : completes1 (sbox_permute (pos_sbox p)) f -> (pos_full p mod 2 = 0)%nat ->
  length xs = pos_width p -> (0 < pos_width p)%nat -> (0 < length (pos_mds p))%nat -> hasl s xs l ->
  comp D P s (poseidon_permute p xs) (done P (fun r s' => hasl s' r (poseidon_fun f (pos_full p) (pos_partial p) (pos_mds p) l))).
Proof using Hp.
  intros Hf Ev Lx W M Hl. unfold poseidon_permute, poseidon_fun. rewrite Lx, Nat.eqb_refl, Ev.
  eapply comp_liftb; [reflexivity|]. eapply comp_liftb; [reflexivity|].
  assert (L0 : (0 < length l)%nat) by (rewrite <- (hasl_length _ _ _ Hl); lia). clear Lx W.
  generalize (seq 0 (pos_full p + pos_partial p)) as rs. intro rs. revert s xs l Hl L0. induction rs as [|r rs IH]; intros s xs l Hl L0; cbn [bfold fold_left].
  - apply comp_ret. split; [reflexivity|exact Hl].
  - rewrite (full_round_eq p r Ev). set (l1 := if full_round (pos_full p) (pos_partial p) r then map f l else on_first f l).
    assert (L1 : (0 < length l1)%nat) by (unfold l1; destruct (full_round _ _ r); rewrite ?map_length, ?on_first_length; exact L0).
    eapply comp_bind with (Q := done P (fun ys s' => hasl s' ys (row_scale (pos_mds p) l1))).
    + eapply comp_bind with (Q := done P (fun ys s' => hasl s' ys l1)).
      * unfold l1. destruct (full_round (pos_full p) (pos_partial p) r); [apply comp_bmap_has; auto|].
        destruct Hl as [|x a xs l Hx Hl]; [cbn in L0; lia|]. cbn [update_first on_first].
        eapply comp_bind; [apply Hf; exact Hx|]. intros y P1 s1 X1 G1 [-> Hy]. apply comp_ret. split; [reflexivity|]. constructor; [exact Hy|]. eapply hasl_ext; eauto.
      * intros ys P1 s1 X1 G1 [-> Hy]. apply comp_ret. split; [reflexivity|]. apply hasl_matrix_mul. exact Hy.
    + intros ys P1 s1 X1 G1 [-> Hy]. apply IH; [exact Hy|]. rewrite row_scale_length. lia.
Qed.

(** lanes are independent *)
Lemma row_scale_lane m l1 l2 i : nth_error l1 i = nth_error l2 i -> nth_error (row_scale m l1) i = nth_error (row_scale m l2) i.
Proof using. intro E. rewrite !row_scale_nth, E. reflexivity. Qed.

Lemma poseidon_lane f full part mds l1 l2 i : nth_error l1 i = nth_error l2 i ->
  nth_error (poseidon_fun f full part mds l1) i = nth_error (poseidon_fun f full part mds l2) i.
Proof using.
  unfold poseidon_fun. generalize (seq 0 (full + part)) as rs. intro rs. revert l1 l2. induction rs as [|r rs IH]; intros l1 l2 E; cbn [fold_left]; [exact E|].
  apply IH, row_scale_lane. destruct (full_round full part r).
  - rewrite !nth_error_map, E. reflexivity.
  - destruct i as [|i]; destruct l1 as [|x l1], l2 as [|y l2]; cbn [on_first nth_error] in *; congruence.
Qed.

Lemma rescue_lane f g rounds mds l1 l2 i : nth_error l1 i = nth_error l2 i ->
  nth_error (rescue_fun f g rounds mds l1) i = nth_error (rescue_fun f g rounds mds l2) i.
Proof using.
  unfold rescue_fun. generalize (seq 0 rounds) as rs. intro rs. revert l1 l2. induction rs as [|r rs IH]; intros l1 l2 E; cbn [fold_left]; [exact E|].
  apply IH, row_scale_lane. rewrite !nth_error_map. f_equal. apply row_scale_lane. rewrite !nth_error_map, E. reflexivity.
Qed.

(** no round constants: the zero state is a fixed point *)
Lemma row_scale_zero m l : Forall (eq 0) l -> Forall (eq 0) (row_scale m l).
Proof using Hp.
  intro H. unfold row_scale. revert m. induction H as [|a l Ha H IH]; intros [|r m]; cbn [combine map]; constructor; auto.
  subst a. cbn [fst snd]. rewrite Z.mul_0_l. symmetry. apply Z.mod_0_l. lia.
Qed.
Lemma map_zero (f : Z -> Z) l : f 0 = 0 -> Forall (eq 0) l -> Forall (eq 0) (map f l).
Proof using. intros E H. induction H; cbn; constructor; auto. subst. auto. Qed.
Lemma poseidon_zero f full part mds l : f 0 = 0 -> Forall (eq 0) l -> Forall (eq 0) (poseidon_fun f full part mds l).
Proof using Hp.
  intro E. unfold poseidon_fun. generalize (seq 0 (full + part)) as rs. intro rs. revert l. induction rs as [|r rs IH]; intros l H; cbn [fold_left]; [exact H|].
  apply IH, row_scale_zero. destruct (full_round full part r); [apply map_zero; assumption|].
  destruct H; cbn [on_first]; constructor; auto. subst. auto.
Qed.
Lemma rescue_zero f g rounds mds l : f 0 = 0 -> g 0 = 0 -> Forall (eq 0) l -> Forall (eq 0) (rescue_fun f g rounds mds l).
Proof using Hp.
  intros E E'. unfold rescue_fun. generalize (seq 0 rounds) as rs. intro rs. revert l. induction rs as [|r rs IH]; intros l H; cbn [fold_left]; [exact H|].
  apply IH, row_scale_zero, map_zero, row_scale_zero, map_zero; assumption.
Qed.

(** ** Rescue *)
Lemma monomial_new_inv n m : infield n -> monomial_new n = Ok m -> m = n /\ Z.gcd (order - 1) n = 1.
Proof using Hp.
  intros I E. rewrite (monomial_new_ok Hp n I) in E. destruct (Z.eqb_spec (Z.gcd (order - 1) n) 1); [|discriminate]. injection E as <-. auto.
Qed.

Lemma mono_pi1 r x : mono (rescue_pi1 r x).
Proof using. unfold rescue_pi1. apply mono_bind; [apply mono_lift|intro; apply mono_exponentiation]. Qed.
Lemma mono_pi2 r x : mono (rescue_pi2 r x).
Proof using. unfold rescue_pi2. apply mono_bind; [apply mono_lift|intro; apply mono_monomial_inverse]. Qed.
Lemma mono_rescue r xs : mono (rescue_permute r xs).
Proof using.
  unfold rescue_permute. apply mono_bfold. intros. apply mono_bind; [apply mono_bmap; intro; apply mono_pi1|intro].
  apply mono_bind; [apply mono_bmap; intro; apply mono_pi2|intro; apply mono_ret].
Qed.

Lemma snd_rescue r w f g xs : wf_witness w -> (forall x, sound w (rescue_pi1 r x) (fun y => ev w y = f (ev w x))) ->
  (forall x, sound w (rescue_pi2 r x) (fun y => ev w y = g (ev w x))) ->
  sound w (rescue_permute r xs) (fun ys => map (ev w) ys = rescue_fun f g (res_rounds r) (res_mds r) (map (ev w) xs)).
Proof using Hp.
  intros Hw Hf Hg. unfold rescue_permute, rescue_fun. generalize (seq 0 (res_rounds r)) as rs. intro rs. revert xs. induction rs as [|k rs IH]; intro xs; cbn [bfold fold_left].
  - apply sound_ret. reflexivity.
  - eapply sound_bind with (Q := fun ys => map (ev w) ys = row_scale (res_mds r) (map g (row_scale (res_mds r) (map f (map (ev w) xs))))).
    + eapply sound_bind; [apply sound_bmap_ev with (g := f); [intro; apply mono_pi1|exact Hf]|intro; apply mono_bind; [apply mono_bmap; intro; apply mono_pi2|intro; apply mono_ret]|].
      cbv beta. intros c1 E1. eapply sound_bind; [apply sound_bmap_ev with (g := g); [intro; apply mono_pi2|exact Hg]|intro; apply mono_ret|].
      cbv beta. intros c2 E2. apply sound_ret. rewrite ev_matrix_mul, E2, ev_matrix_mul, E1. reflexivity.
    + intro. apply mono_bfold. intros. apply mono_bind; [apply mono_bmap; intro; apply mono_pi1|intro].
      apply mono_bind; [apply mono_bmap; intro; apply mono_pi2|intro; apply mono_ret].
    + cbv beta. intros ys E. eapply sound_weaken; [apply IH|]. cbv beta. intros zs ->. rewrite E. reflexivity.
Qed.

(** For every accepted exponent the two S-boxes are mutually inverse bijections. *)
Lemma rescue_sboxes r : 2 <= res_alpha r < order -> Z.gcd (order - 1) (res_alpha r) = 1 ->
  exists g, (forall a, infield a -> infield (g a) /\ g ((a ^ res_alpha r) mod order) = a /\ (g a ^ res_alpha r) mod order = a) /\
    computes1 (rescue_pi1 r) (fun a => (a ^ res_alpha r) mod order) /\ computes1 (rescue_pi2 r) g /\
    completes1 (rescue_pi1 r) (fun a => (a ^ res_alpha r) mod order) /\ completes1 (rescue_pi2 r) g.
Proof using Hp.
  intros Ha Hg. destruct (monomial_is_permutation Hp (res_alpha r) Ha Hg) as (g & C1 & C2 & C3 & C4 & C5).
  assert (En : monomial_new (res_alpha r) = Ok (res_alpha r)).
  { rewrite (monomial_new_ok Hp) by (unfold infield; lia). rewrite Hg. reflexivity. }
  exists g. split; [|split; [|split; [|split]]].
  - intros a Ia. destruct (C5 a Ia) as (_ & A & B & C). auto.
  - split; [apply mono_pi1|]. intros x. apply to_call. intros w Hw. unfold rescue_pi1. rewrite En.
    intros b y b' E. exact (computes1_snd _ _ w x Hw C1 b y b' E).
  - split; [apply mono_pi2|]. intros x. apply to_call. intros w Hw. unfold rescue_pi2. rewrite En.
    intros b y b' E. exact (computes1_snd _ _ w x Hw C2 b y b' E).
  - intros D P s x a Hx. unfold rescue_pi1. eapply comp_liftb; [exact En|]. apply C3. exact Hx.
  - intros D P s x a Hx. unfold rescue_pi2. eapply comp_liftb; [exact En|]. apply C4. exact Hx.
Qed.

Lemma cmpl_rescue D P r f g : completes1 (rescue_pi1 r) f -> completes1 (rescue_pi2 r) g -> forall s xs l, hasl s xs l ->
  comp D P s (rescue_permute r xs) (done P (fun ys s' => hasl s' ys (rescue_fun f g (res_rounds r) (res_mds r) l))).
Proof using Hp.
  intros Hf Hg. unfold rescue_permute, rescue_fun. generalize (seq 0 (res_rounds r)) as rs. intro rs. induction rs as [|k rs IH]; intros s xs l Hl; cbn [bfold fold_left].
  - apply comp_ret. split; [reflexivity|exact Hl].
  - eapply comp_bind with (Q := done P (fun ys s' => hasl s' ys (row_scale (res_mds r) (map g (row_scale (res_mds r) (map f l)))))).
    + eapply comp_bind; [apply comp_bmap_has; [exact Hf|exact Hl]|]. intros c1 P1 s1 X1 G1 [-> H1].
      eapply comp_bind; [apply comp_bmap_has; [exact Hg|apply hasl_matrix_mul; exact H1]|]. intros c2 P2 s2 X2 G2 [-> H2].
      apply comp_ret. split; [reflexivity|]. apply hasl_matrix_mul. exact H2.
    + intros ys P1 s1 X1 G1 [-> Hy]. apply IH. exact Hy.
Qed.
End Matrix.
