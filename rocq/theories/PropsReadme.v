(** C71-C74: the gadget as an R1CS instance, the programs of the README, the macros that make wire values. *)
From Coq Require Import ZArith List Bool Arith Lia Znumtheory.
From Verif Require Import Base FieldM FieldP ExprM BuilderM GadgetsM CryptoM ReadmeM Spec SpecCrypto ExprP BitsP MonoP LocalP
  SoundP CmpP GadgetSoundP HonestP ExecP CoreP CompleteP CmpCompleteP GadgetCompleteP SatP Demo PropLib CryptoP PropsCore PropsCrypto PrimeP.
Import ListNotations.
Open Scope Z_scope.

(** ** C71: README.md 5: "does there exist a witness vector w such that Aw o Bw = Cw?" *)
Definition dot (row w : list Z) : Z := fold_right Z.add 0 (map (fun cx => fst cx * snd cx) (combine row w)).
Definition mat_vec (p : Z) (M : list (list Z)) (w : list Z) : list Z := map (fun row => dot row w mod p) M.
Definition hadamard (p : Z) (u v : list Z) : list Z := map (fun xy => (fst xy * snd xy) mod p) (combine u v).
Definition r1cs (p : Z) (A B C : list (list Z)) (w : list Z) : Prop := hadamard p (mat_vec p A w) (mat_vec p B w) = mat_vec p C w.
Definition matrix_of (rows cols p : Z) (M : list (list Z)) : Prop :=
  Z.of_nat (length M) = rows /\ Forall (fun row => Z.of_nat (length row) = cols /\ Forall (fun c => 0 <= c < p) row) M.

(** The coefficient of a wire in a linear combination, and the row of all coefficients. *)
Definition coefficient (p : Z) (e : list (nat * Z)) (k : nat) : Z :=
  fold_right Z.add 0 (map snd (filter (fun t => (fst t =? k)%nat) e)) mod p.
Definition row_of (p : Z) (n : nat) (e : list (nat * Z)) : list Z := map (coefficient p e) (seq 0 n).

Section Matrices.
Context {F : Field} (Hord : 2 <= order).

Lemma dot_zero n : forall a w, dot (map (fun _ => 0) (seq a n)) w = 0.
Proof. induction n as [|n IH]; intros a [|x w]; auto. cbn [seq map]. unfold dot in *. cbn. rewrite IH. reflexivity. Qed.

(** one more term *)
Lemma dot_unit k c n w : forall a, (a <= k)%nat -> (k < a + n)%nat -> length w = n ->
  dot (map (fun j => if (j =? k)%nat then c else 0) (seq a n)) w = c * nth (k - a) w 0.
Proof.
  revert w. induction n as [|n IH]; intros w a L1 L2 Lw; [lia|]. destruct w as [|x w]; [discriminate|]. injection Lw as Lw. cbn [seq map].
  unfold dot. cbn [combine map fold_right fst snd]. fold (dot (map (fun j => if (j =? k)%nat then c else 0) (seq (S a) n)) w).
  destruct (Nat.eqb_spec a k) as [->|N].
  - rewrite Nat.sub_diag. cbn [nth]. rewrite (map_ext_in _ (fun _ => 0)); [rewrite dot_zero; ring|].
    intros j Hj. apply in_seq in Hj. destruct (Nat.eqb_spec j k); [lia|reflexivity].
  - rewrite IH by lia. replace (k - a)%nat with (S (k - S a)) by lia. cbn [nth]. ring.
Qed.
Lemma dot_add n (f g : nat -> Z) : forall a w, dot (map (fun j => f j + g j) (seq a n)) w = dot (map f (seq a n)) w + dot (map g (seq a n)) w.
Proof. induction n as [|n IH]; intros a [|x w]; auto. cbn [seq map]. unfold dot in *. cbn. rewrite IH. ring. Qed.
Lemma dot_mod n (f : nat -> Z) : forall a w, dot (map (fun j => f j mod order) (seq a n)) w mod order = dot (map f (seq a n)) w mod order.
Proof using Hord.
  induction n as [|n IH]; intros a [|x w]; auto. cbn [seq map]. unfold dot in *. cbn.
  rewrite Z.add_mod, IH, <- Z.add_mod, <- Zplus_mod_idemp_l, Zmult_mod_idemp_l, Zplus_mod_idemp_l by lia. reflexivity.
Qed.

Lemma dot_row n w e : length w = n -> below n e -> dot (row_of order n e) w mod order = ev (fun k => nth k w 0) e.
Proof using Hord.
  intros Lw Hb. unfold row_of, coefficient. rewrite dot_mod. unfold ev. f_equal.
  induction e as [|[k c] e IH].
  - cbn. rewrite dot_zero. reflexivity.
  - cbn [lin fold_right fst snd]. fold (lin (fun k => nth k w 0) e). rewrite <- IH by (intros j Hj; apply Hb; right; exact Hj).
    rewrite (map_ext _ (fun j => (if (j =? k)%nat then c else 0) + fold_right Z.add 0 (map snd (filter (fun t => (fst t =? j)%nat) e)))).
    + rewrite dot_add, dot_unit; [rewrite Nat.sub_0_r; ring|lia| |exact Lw]. cbn. apply Hb. left. reflexivity.
    + intro j. cbn [filter fst]. rewrite Nat.eqb_sym. destruct (j =? k)%nat; cbn; ring.
Qed.

Lemma row_of_ok n e : Z.of_nat (length (row_of order n e)) = Z.of_nat n /\ Forall (fun c => 0 <= c < order) (row_of order n e).
Proof using Hord.
  unfold row_of. rewrite map_length, seq_length. split; [reflexivity|]. apply Forall_forall. intros c Hc. apply in_map_iff in Hc.
  destruct Hc as (k & <- & _). apply Z.mod_pos_bound. lia.
Qed.

Lemma hadamard_iff (w : list Z) n cs : length w = n ->
  Forall (fun c => below n (c_a c) /\ below n (c_b c) /\ below n (c_c c)) cs ->
  (Forall (sat1 (fun k => nth k w 0)) cs <->
   r1cs order (map (fun c => row_of order n (c_a c)) cs) (map (fun c => row_of order n (c_b c)) cs) (map (fun c => row_of order n (c_c c)) cs) w).
Proof using Hord.
  intros Lw Hb. unfold r1cs, hadamard, mat_vec. induction cs as [|c cs IH].
  - cbn. split; auto.
  - inversion Hb as [|? ? (Ba & Bb & Bc) Hb']; subst. specialize (IH Hb'). cbn [map combine fst snd].
    rewrite !dot_row by auto. split.
    + intro H. inversion H as [|? ? H1 H2]; subst. apply IH in H2. rewrite H2. f_equal. exact H1.
    + intro H. injection H as H1 H2. constructor; [exact H1|apply IH, H2].
Qed.
End Matrices.

(** Whatever has been built: there are matrices with one row per constraint and one column per wire whose entries are
    the coefficients in the constraints, such that the satisfying assignments are exactly the vectors with A w o B w = C w. *)
Theorem C71_instance : forall (F : Field), 2 <= order -> forall b, wf_builder b ->
  exists A B C, matrix_of (Z.of_nat (length (constraints b))) (Z.of_nat (next b)) order A /\
    matrix_of (Z.of_nat (length (constraints b))) (Z.of_nat (next b)) order B /\
    matrix_of (Z.of_nat (length (constraints b))) (Z.of_nat (next b)) order C /\
    (forall i k c, nth_error (constraints b) i = Some c -> (k < next b)%nat ->
       nth k (nth i A []) 0 = coefficient order (c_a c) k /\ nth k (nth i B []) 0 = coefficient order (c_b c) k /\
       nth k (nth i C []) 0 = coefficient order (c_c c) k) /\
    (forall w, length w = next b -> (sat (fun k => nth k w 0) b <-> r1cs order A B C w)).
Proof.
  intros F H b [N Hb]. set (rows f := map (fun c => row_of order (next b) (f c)) (constraints b)).
  assert (M : forall f, matrix_of (Z.of_nat (length (constraints b))) (Z.of_nat (next b)) order (rows f)).
  { intro f. unfold matrix_of, rows. rewrite map_length. split; [reflexivity|]. apply Forall_forall. intros r Hr. apply in_map_iff in Hr.
    destruct Hr as (c & <- & _). apply (row_of_ok H). }
  assert (E : forall f i k c, nth_error (constraints b) i = Some c -> (k < next b)%nat -> nth k (nth i (rows f) []) 0 = coefficient order (f c) k).
  { intros f i k c Hi Hk. unfold rows. rewrite (nth_error_nth _ i [] (x := row_of order (next b) (f c))) by exact (map_nth_error (fun c => row_of order (next b) (f c)) i (constraints b) Hi).
    unfold row_of. rewrite (nth_indep _ 0 (coefficient order (f c) 0)) by (rewrite map_length, seq_length; exact Hk).
    rewrite map_nth, seq_nth by exact Hk. reflexivity. }
  exists (rows c_a), (rows c_b), (rows c_c). split; [apply M|]. split; [apply M|]. split; [apply M|]. split; [intros i k c Hi Hk; auto|].
  intros w Lw. apply (hadamard_iff H); assumption.
Qed.
Print Assumptions C71_instance.

(** What [execute] returns is such a vector, extending the given values, exactly when it returns true. *)
Theorem C71_execute : forall (F : Field), 2 <= order -> forall b, wf_builder b ->
  Forall (fun x => adds (g_run x)) (generators b) -> exists A B C,
    matrix_of (Z.of_nat (length (constraints b))) (Z.of_nat (next b)) order A /\
    matrix_of (Z.of_nat (length (constraints b))) (Z.of_nat (next b)) order B /\
    matrix_of (Z.of_nat (length (constraints b))) (Z.of_nat (next b)) order C /\
    (forall w, length w = next b -> (sat (fun k => nth k w 0) b <-> r1cs order A B C w)) /\
    forall v ok v', execute (build b) v = Ok (ok, v') ->
      let w := map (witness_of v') (seq 0 (next b)) in
      (forall k x, (k < next b)%nat -> m_get k v = Some x -> 0 <= x < order -> nth k w 0 = x) /\
      (ok = true <-> r1cs order A B C w).
Proof.
  intros F H b Hb HA. destruct (C71_instance F H b Hb) as (A & B & C & MA & MB & MC & _ & HS). exists A, B, C.
  split; [exact MA|]. split; [exact MB|]. split; [exact MC|]. split; [exact HS|].
  intros v ok v' E w. destruct (C11_execute F H (build b) v ok v' HA E) as (_ & K & T).
  assert (Lw : length w = next b) by (unfold w; rewrite map_length, seq_length; reflexivity).
  assert (Nw : forall k, (k < next b)%nat -> nth k w 0 = witness_of v' k).
  { intros k Hk. unfold w. rewrite (nth_indep _ 0 (witness_of v' 0%nat)) by (rewrite map_length, seq_length; exact Hk).
    rewrite map_nth, seq_nth by exact Hk. reflexivity. }
  split.
  - intros k x Hk G Ix. rewrite Nw by exact Hk. unfold witness_of. rewrite (K k x G). apply Z.mod_small. exact Ix.
  - rewrite T, <- HS by exact Lw. unfold sat. cbn [build gd_constraints]. destruct Hb as [_ Hb].
    assert (X : forall e, below (next b) e -> ev (witness_of v') e = ev (fun k => nth k w 0) e).
    { intros e He. unfold ev. f_equal. induction e as [|[k c] e IH]; [reflexivity|]. cbn [lin fold_right fst snd].
      rewrite Nw by (apply He; left; reflexivity). f_equal. apply IH. intros j Hj. apply He. right. exact Hj. }
    clear - Hb X. induction Hb as [|c cs (Ba & Bb & Bc) _ IH]; [split; constructor|].
    split; intro S; inversion S as [|? ? S1 S2]; subst; constructor; try (apply IH; exact S2);
      unfold sat1 in *; [rewrite <- !X by assumption|rewrite !X by assumption]; exact S1.
Qed.
Print Assumptions C71_execute.

Example C71_example : let F : Field := F7 in
  match readme_cube b_new with
  | Ok (_, b) => wf_builder b /\ Forall (fun x => adds (g_run x)) (generators b) /\
      r1cs 7 [[0; 1; 0; 0]; [0; 0; 1; 0]] [[0; 1; 0; 0]; [0; 1; 0; 0]] [[0; 0; 1; 0]; [0; 0; 0; 1]] [1; 3; 2; 6] /\
      map (fun c => row_of 7 4 (c_a c)) (constraints b) = [[0; 1; 0; 0]; [0; 0; 1; 0]] /\
      map (fun c => row_of 7 4 (c_c c)) (constraints b) = [[0; 0; 1; 0]; [0; 0; 0; 1]]
  | _ => False
  end.
Proof.
  intro F. assert (M : mono readme_cube) by (unfold readme_cube; repeat (apply mono_bind; [auto with mono|intro]); auto with mono).
  destruct (readme_cube b_new) as [[r b]| |] eqn:E; [|discriminate E..].
  assert (G : Forall (fun x => adds (g_run x)) (generators b)).
  { destruct (M _ _ _ E) as (_ & _ & gs & Eg & Ag). cbn in Eg. rewrite Eg. exact Ag. }
  assert (K : match readme_cube b_new with Ok (_, b) => Some (next b, constraints b) | _ => None end
    = Some (4%nat, [mkC [(1%nat, 1)] [(1%nat, 1)] [(2%nat, 1)]; mkC [(2%nat, 1)] [(1%nat, 1)] [(3%nat, 1)]])) by (vm_compute; reflexivity).
  rewrite E in K. injection K as K1 K2. rewrite K2. split; [|split; [exact G|vm_compute; auto]].
  unfold wf_builder. rewrite K1, K2. split; [lia|].
  repeat (apply Forall_cons; [split; [|split]; cbn [c_a c_b c_c]; intros k Hk; cbn in Hk; lia|]). apply Forall_nil.
Qed.

(** ** C72: README.md 40-59, the basic example, in every field of prime order and for every input *)
Theorem C72_cube_sound : forall (F : Field), prime order ->
  sound_call readme_cube (fun w r => ev w (snd r) = w (fst r) ^ 3 mod order).
Proof.
  intros F Hp. apply to_call. intros w Hw. unfold readme_cube. pose proof (prime_ge2 Hp) as Hord.
  eapply sound_bind with (Q := fun _ => True); [intros ? ? ? ? ?; exact I|intro; mono|]. intros x _. cbv zeta.
  sbind (apply (snd_product Hp w Hw)). intros x2 E2. sbind (apply (snd_product Hp w Hw)). intros x3 E3. apply sound_ret. cbn [fst snd].
  rewrite E3, E2, (ev_wire Hord) by apply Hw. rewrite Zmult_mod_idemp_l. f_equal. ring.
Qed.
Print Assumptions C72_cube_sound.

Lemma values_macro_one {F : Field} k x : (k <> 0)%nat -> values_macro [(k, x)] = Ok (m_insert k x v_new).
Proof. intro N. unfold values_macro, v_set. cbn. destruct (Nat.eqb_spec k ONE); [contradiction|reflexivity]. Qed.

Theorem C72_cube_runs : forall (F : Field), prime order -> forall x, 0 <= x < order ->
  readme_basic_example x = Ok (true, x ^ 3 mod order).
Proof.
  intros F Hp x Ix. pose proof (prime_ge2 Hp) as Hord.
  assert (R : runs [x] (x2 <- product (e_wire 1) (e_wire 1) ;; product x2 (e_wire 1)) (fun r v => e_evaluate v r = Ok (x ^ 3 mod order))).
  { assert (Hv : good_inputs [x]) by (constructor; [exact Ix|constructor]). apply (to_runs1 Hp); [exact Hv|].
    assert (Hi : has (s0 [x]) (e_wire 1) x).
    { eapply has_eq; [apply has_input|apply (ev_wire Hord); exact Ix]. intros k Hk. cbn in Hk. cbn. lia. }
    cbind (apply (cmpl_product Hp); eassumption). intros x2 P1 s1 X1 G1 [-> H2]. carry.
    cweaken (apply (cmpl_product Hp); eassumption). intros r P2 s2 X2 G2 [-> H3]. split; [reflexivity|].
    eapply has_eq; [exact H3|]. rewrite Zmult_mod_idemp_l. f_equal. ring. }
  assert (V : input_values [x] (m_insert 1 x v_new)).
  { split; [reflexivity|]. split.
    - intros i Hi. cbn in Hi. assert (i = 0)%nat by lia. subst i. reflexivity.
    - intros k Hk. cbn in Hk. destruct k as [|[|k]]; [lia|lia|reflexivity]. }
  destruct (R _ V) as (ws & b0 & r & b' & v & E0 & Em & Ee & _ & Er). cbn in E0. injection E0 as <- <-.
  unfold readme_basic_example, readme_cube. unfold bbind at 1. cbn [b_wire b_new next constraints generators].
  cbv zeta. unfold bbind in Em |- *. destruct (product (e_wire 1) (e_wire 1) _) as [[x2 b1]| |]; try discriminate.
  rewrite Em. cbn [bret obind]. rewrite values_macro_one by lia. cbn [obind]. rewrite Ee. cbn [obind]. rewrite Er. reflexivity.
Qed.
Print Assumptions C72_cube_runs.

(** README.md 62: "This can also be done more succinctly with [exp(x, 3)]": the same value in every satisfying assignment. *)
Theorem C72_power_agrees : forall (F : Field), prime order ->
  sound_call (rc <- readme_cube ;; e <- exponentiation (e_wire (fst rc)) 3 ;; bret (snd rc, e)) (fun w r => ev w (fst r) = ev w (snd r)).
Proof.
  intros F Hp. apply to_call. intros w Hw. pose proof (prime_ge2 Hp) as Hord.
  assert (M : mono readme_cube) by (unfold readme_cube; mono).
  eapply sound_bind with (Q := fun r => ev w (snd r) = w (fst r) ^ 3 mod order).
  - intros b r b' E Hs. exact (C72_cube_sound F Hp b r b' w E Hw Hs).
  - intro. mono.
  - intros r Er. cbv beta. sbind (apply (snd_exponentiation Hp w Hw); lia). intros e Ee. apply sound_ret. cbn [fst snd].
    rewrite Er, Ee, (ev_wire Hord) by apply Hw. reflexivity.
Qed.
Print Assumptions C72_power_agrees.

(** The numbers of the README. *)
Example C72_example : @readme_basic_example Bn128 5 = Ok (true, 125).
Proof. vm_compute. reflexivity. Qed.
(** ** C73: README.md 86-94, the hash function *)
Definition readme_hash_fun (p : Z) (cs : list Z) (iv : Z) (blocks : list Z) : Z :=
  md_fun (fun a b => (@mimc_fun (mkField p) 3 cs b a + a) mod p) iv blocks.

Lemma lcg_elements_field {F : Field} fuel n : 2 <= order -> forall s cs, 0 <= s < 2 ^ 32 -> lcg_elements fuel n s = Ok cs ->
  length cs = n /\ Forall (fun c => 0 <= c < order) cs.
Proof.
  intro Hord. induction n as [|n IH]; intros s cs Hs E; cbn [lcg_elements] in E; [injection E as <-; auto|].
  destruct (lcg_element fuel s) as [[e s1]| |] eqn:Ee; try discriminate. cbn [obind] in E.
  destruct (lcg_elements fuel n s1) as [es| |] eqn:Es; try discriminate. cbn [obind] in E. injection E as <-.
  destruct (C50_element_in_field F Hord fuel s e s1 Hs Ee) as [A B]. destruct (IH s1 es B Es) as [L Fs]. cbn. auto.
Qed.

Lemma readme_hash_inv {F : Field} (Hp : prime order) fuel blocks b r b' : readme_hash fuel blocks b = Ok (r, b') ->
  exists cs c iv s, lcg_elements fuel mimc_recommended_rounds lcg_new = Ok cs /\ mimc_new cs = Ok c /\
    lcg_element fuel lcg_new = Ok (iv, s) /\ merkle_damgard iv (davies_meyer c) blocks b = Ok (r, b').
Proof.
  unfold readme_hash, bbind, blift, mimc_default, merkle_damgard_defaults. destruct (lcg_elements _ _ _) as [cs| |] eqn:E1; try discriminate. cbn [obind].
  destruct (mimc_new cs) as [c| |] eqn:E2; try discriminate. cbn [obind].
  destruct (lcg_element fuel lcg_new) as [[iv s]| |] eqn:E3; try discriminate. cbn [obind]. intro E. exists cs, c, iv, s. auto.
Qed.

Lemma davies_meyer_computes {F : Field} (Hp : prime order) cs c : good_inputs cs -> mimc_new cs = Ok c ->
  computes2 (davies_meyer c) (fun a b => (mimc_fun 3 cs b a + a) mod order).
Proof. intros Hc E. apply (computes2_davies_meyer Hp). apply (C44_mimc_computes F Hp cs c Hc E). Qed.

Theorem C73_hash_value : forall (F : Field), prime order -> forall fuel blocks,
  sound_call (readme_hash fuel blocks) (fun w r => 3 < order /\ Z.gcd 3 (order - 1) = 1 /\ Z.of_nat (length blocks) < order /\
    exists cs iv s, lcg_elements fuel mimc_recommended_rounds lcg_new = Ok cs /\ lcg_element fuel lcg_new = Ok (iv, s) /\
      Forall (fun c => 0 <= c < order) (iv :: cs) /\ ev w r = readme_hash_fun order cs iv (map (ev w) blocks)).
Proof.
  intros F Hp fuel blocks. pose proof (prime_ge2 Hp) as Hord. intros b r b' w E Hw Hs.
  destruct (readme_hash_inv Hp _ _ _ _ _ E) as (cs & c & iv & s & E1 & E2 & E3 & E4).
  destruct (C50_element_in_field F Hord fuel lcg_new iv s ltac:(vm_compute; split; congruence) E3) as [Iv _].
  destruct (lcg_elements_field fuel _ Hord lcg_new cs ltac:(vm_compute; split; congruence) E1) as [_ Ics].
  destruct (mimc_new_inv Hp cs c E2) as (L & G & _).
  destruct (C45_value F Hp iv _ _ blocks Iv (davies_meyer_computes Hp cs c Ics E2) b r b' w E4 Hw Hs) as [Lb Er].
  split; [exact L|]. split; [rewrite Z.gcd_comm; exact G|]. split; [exact Lb|]. exists cs, iv, s.
  split; [exact E1|]. split; [exact E3|]. split; [constructor; assumption|]. exact Er.
Qed.
Print Assumptions C73_hash_value.

(** Whenever 3 is prime to p - 1 and the LCG delivers its constants, executing the gadget gives that value. *)
Theorem C73_hash_runs : forall (F : Field), prime order -> 3 < order -> Z.gcd 3 (order - 1) = 1 -> forall fuel cs iv s,
  lcg_elements fuel mimc_recommended_rounds lcg_new = Ok cs -> lcg_element fuel lcg_new = Ok (iv, s) -> forall vals blocks,
  good_inputs vals -> on_inputs_all vals blocks -> Z.of_nat (length blocks) < order ->
  runs vals (readme_hash fuel blocks) (fun r v => e_evaluate v r = Ok (readme_hash_fun order cs iv (map (wv vals) blocks))).
Proof.
  intros F Hp L G fuel cs iv s E1 E3 vals blocks Hv Hb Lb. pose proof (prime_ge2 Hp) as Hord.
  destruct (C50_element_in_field F Hord fuel lcg_new iv s ltac:(vm_compute; split; congruence) E3) as [Iv _].
  destruct (lcg_elements_field fuel _ Hord lcg_new cs ltac:(vm_compute; split; congruence) E1) as [_ Ics].
  destruct (proj1 (C43_new F Hp cs) (conj L G)) as [c E2].
  assert (E : forall b, readme_hash fuel blocks b = merkle_damgard iv (davies_meyer c) blocks b).
  { intro b. unfold readme_hash, bbind, blift, mimc_default, merkle_damgard_defaults. rewrite E1. cbn [obind]. rewrite E2. cbn [obind]. rewrite E3. reflexivity. }
  intros v0 V0. destruct (C45_mimc_runs F Hp cs c iv Ics E2 Iv vals blocks Hv Hb Lb v0 V0) as (ws & b0 & r & b' & v & R1 & R2 & R3).
  exists ws, b0, r, b', v. rewrite E. auto.
Qed.
Print Assumptions C73_hash_runs.

(** But on the two fields the library ships it always panics: nobody can call the README's function as it stands. *)
Theorem C73_shipped_fields_refuted : forall blocks b,
  @readme_hash Bn128 10 blocks b = Panic /\ @readme_hash Bls12_381 10 blocks b = Panic /\
  (forall fuel r, @readme_hash Bn128 fuel blocks b <> Ok r) /\ (forall fuel r, @readme_hash Bls12_381 fuel blocks b <> Ok r).
Proof.
  intros blocks b.
  assert (A : forall (F : Field) fuel r, (forall c, mimc_default fuel <> Ok c) -> readme_hash fuel blocks b <> Ok r).
  { intros F fuel r H E. unfold readme_hash, bbind, blift in E. destruct (mimc_default fuel) as [c| |]; try discriminate. exact (H c eq_refl). }
  assert (X : forall (F : Field) fuel, mimc_default fuel = Panic -> readme_hash fuel blocks b = Panic).
  { intros F fuel H. unfold readme_hash, bbind, blift. rewrite H. reflexivity. }
  split; [apply X; vm_compute; reflexivity|]. split; [apply X; vm_compute; reflexivity|].
  split; intros fuel r; pose proof (C43_shipped_fields_panic [] fuel) as (_ & _ & P1 & P2).
  - exact (A Bn128 fuel r P1).
  - exact (A Bls12_381 fuel r P2).
Qed.
Print Assumptions C73_shipped_fields_refuted.

(** Both generators start from the same seed, so the initial state of the hash is the first constant of the cipher. *)
Theorem C73_initial_state_is_first_constant : forall (F : Field) fuel cs iv s,
  lcg_elements fuel mimc_recommended_rounds lcg_new = Ok cs -> lcg_element fuel lcg_new = Ok (iv, s) -> cs = [] \/ hd 0 cs = iv.
Proof.
  intros F fuel cs iv s E1 E3. destruct mimc_recommended_rounds as [|n]; cbn [lcg_elements] in E1; [injection E1 as <-; auto|].
  rewrite E3 in E1. cbn [obind] in E1. destruct (lcg_elements fuel n s) as [es| |]; try discriminate. cbn [obind] in E1. injection E1 as <-. auto.
Qed.
Print Assumptions C73_initial_state_is_first_constant.

Example C73_example : let F : Field := F11 in
  demo [5; 7] (readme_hash 10 [e_wire 1; e_wire 2]) (fun r => [r]) = Ok (true, [match lcg_elements 10 mimc_recommended_rounds lcg_new, lcg_element 10 lcg_new with
    | Ok cs, Ok (iv, _) => readme_hash_fun 11 cs iv [5; 7] | _, _ => 0 end]) /\
  sat_case (readme_hash 10 [e_wire 1; e_wire 2]) (fun _ _ => true).
Proof. split; [vm_compute; reflexivity|]. apply demo_check_ok with (vals := [5; 7]). vm_compute. reflexivity. Qed.

(** ** C74: wire_values.rs 80-120 *)
Lemma set_all {F : Field} l : forall v,
  (NoDup (map fst l) -> (forall k, In k (map fst l) -> m_get k v = None) ->
   exists v', ofold (fun v kx => v_set (fst kx) (snd kx) v) l v = Ok v' /\
     (forall k x, In (k, x) l -> m_get k v' = Some x) /\ (forall k, ~ In k (map fst l) -> m_get k v' = m_get k v)) /\
  (~ (NoDup (map fst l) /\ forall k, In k (map fst l) -> m_get k v = None) -> ofold (fun v kx => v_set (fst kx) (snd kx) v) l v = Panic).
Proof.
  induction l as [|[k x] l IH]; intro v.
  - split; [intros _ _; exists v; cbn; auto; split; [reflexivity|split; [tauto|auto]]|].
    intro H. exfalso. apply H. split; [constructor|intros k []].
  - destruct (C09_set F k x v) as [S1 S2]. cbn [map ofold fst snd]. split.
    + intros ND Fr. inversion ND as [|? ? Nk ND']; subst. destruct (S2 (Fr k (or_introl eq_refl))) as (v1 & E1 & G1). rewrite E1. cbn [obind].
      destruct (IH v1) as [IH1 _]. destruct IH1 as (v' & E & A & B); [exact ND'| |].
      * intros j Hj. rewrite G1. destruct (Nat.eqb_spec j k) as [->|]; [contradiction|]. apply Fr. right. exact Hj.
      * exists v'. split; [exact E|]. split.
        -- intros j y [H|H]; [injection H as <- <-|apply A, H]. rewrite B by exact Nk. rewrite G1, Nat.eqb_refl. reflexivity.
        -- intros j Hj. rewrite B by (intro; apply Hj; right; assumption). rewrite G1.
           destruct (Nat.eqb_spec j k) as [->|]; [exfalso; apply Hj; left; reflexivity|reflexivity].
    + intro H. destruct (m_get k v) as [y|] eqn:Gk; [rewrite S1 by congruence; reflexivity|].
      destruct (S2 eq_refl) as (v1 & E1 & G1). rewrite E1. cbn [obind]. apply IH. intros [ND Fr]. apply H.
      assert (Nk : ~ In k (map fst l)). { intro I. specialize (Fr k I). rewrite G1, Nat.eqb_refl in Fr. discriminate. }
      split; [constructor; assumption|]. intros j [<-|Hj]; [exact Gk|]. specialize (Fr j Hj). rewrite G1 in Fr.
      destruct (Nat.eqb_spec j k) as [Ej|]; [subst j; contradiction|exact Fr].
Qed.

(** Distinct wires other than the constant one: the values are as listed, and nothing else is set; otherwise a panic. *)
Theorem C74_values : forall (F : Field) l,
  (NoDup (ONE :: map fst l) -> exists v, values_macro l = Ok v /\ m_get ONE v = Some 1 /\
     (forall k x, In (k, x) l -> m_get k v = Some x) /\ (forall k, ~ In k (ONE :: map fst l) -> m_get k v = None)) /\
  (~ NoDup (ONE :: map fst l) -> values_macro l = Panic).
Proof.
  intros F l. destruct (set_all l v_new) as [H1 H2]. split.
  - intro ND. inversion ND as [|? ? N ND']; subst. destruct H1 as (v & E & A & B); [exact ND'| |].
    + intros k Hk. cbn. destruct (Nat.eqb_spec k ONE) as [->|]; [contradiction|reflexivity].
    + exists v. split; [exact E|]. split; [rewrite B by exact N; reflexivity|]. split; [exact A|]. intros k Hk. rewrite B by (intro; apply Hk; right; assumption).
      cbn. destruct (Nat.eqb_spec k ONE) as [->|]; [exfalso; apply Hk; left; reflexivity|reflexivity].
  - intro N. apply H2. intros [ND Fr]. apply N. constructor; [|exact ND]. intro I. discriminate (Fr ONE I).
Qed.
Print Assumptions C74_values.

Theorem C74_boolean_values : forall (F : Field) l, boolean_values_macro l = values_macro (map (fun kb => (fst kb, b2z (snd kb))) l).
Proof.
  intros F l. unfold boolean_values_macro, values_macro. generalize v_new. induction l as [|[k b] l IH]; intro v; [reflexivity|].
  cbn [map ofold fst snd]. rewrite (C09_set_boolean F). destruct (v_set k (b2z b) v); cbn [obind]; [apply IH|reflexivity|reflexivity].
Qed.
Print Assumptions C74_boolean_values.

Lemma set_binary_all {F : Field} l : forall v, Forall (fun wx => 0 <= snd wx) l ->
  (NoDup (concat (map fst l)) /\ Forall (fun wx => snd wx < 2 ^ Z.of_nat (length (fst wx))) l /\ (forall k, In k (concat (map fst l)) -> m_get k v = None) ->
   exists v', ofold (fun v kx => v_set_binary_unsigned (fst kx) (snd kx) v) l v = Ok v' /\
     (forall ws x i, In (ws, x) l -> (i < length ws)%nat -> m_get (nth i ws 0%nat) v' = Some ((x / 2 ^ Z.of_nat i) mod 2)) /\
     (forall k, ~ In k (concat (map fst l)) -> m_get k v' = m_get k v)) /\
  (~ (NoDup (concat (map fst l)) /\ Forall (fun wx => snd wx < 2 ^ Z.of_nat (length (fst wx))) l /\ (forall k, In k (concat (map fst l)) -> m_get k v = None)) ->
   ofold (fun v kx => v_set_binary_unsigned (fst kx) (snd kx) v) l v = Panic).
Proof.
  induction l as [|[ws x] l IH]; intros v Hn.
  - split.
    + intros _. exists v. split; [reflexivity|]. split; [intros ? ? ? []|auto].
    + intro H. exfalso. apply H. cbn. split; [constructor|]. split; [constructor|tauto].
  - inversion Hn as [|? ? Hx Hl]; subst. cbn [snd] in Hx. destruct (C09_set_binary F ws x v Hx) as [S1 S2]. cbn [map concat ofold fst snd].
    assert (ND2 : forall a b : list nat, NoDup (a ++ b) <-> NoDup a /\ NoDup b /\ forall k, In k a -> ~ In k b).
    { clear. induction a as [|k a IHa]; intro b; cbn.
      - split; [intro H; split; [constructor|]; auto|tauto].
      - split.
        + intro H. inversion H as [|? ? H1 H2]; subst. apply IHa in H2. destruct H2 as (Na & Nb & D). rewrite in_app_iff in H1.
          split; [constructor; tauto|]. split; [exact Nb|]. intros j [<-|Hj]; [tauto|apply D, Hj].
        + intros (Ha & Hb & D). inversion Ha as [|? ? H1 H2]; subst. constructor.
          * rewrite in_app_iff. intros [I|I]; [contradiction|exact (D k (or_introl eq_refl) I)].
          * apply IHa. split; [exact H2|]. split; [exact Hb|]. intros j Hj. apply D. right. exact Hj. }
    split.
    + intros (ND & Fit & Fr). apply ND2 in ND. destruct ND as (N1 & N2 & D). inversion Fit as [|? ? F1 F2]; subst. cbn [fst snd] in F1.
      destruct S1 as (v1 & E1 & G1 & O1); [split; [exact F1|]; split; [exact N1|]; intros k Hk; apply Fr, in_or_app; auto|]. rewrite E1. cbn [obind].
      destruct (IH v1 Hl) as [IH1 _]. destruct IH1 as (v' & E & A & B).
      * split; [exact N2|]. split; [exact F2|]. intros k Hk. rewrite O1; [apply Fr, in_or_app; auto|]. intro I. exact (D k I Hk).
      * exists v'. split; [exact E|]. split.
        -- intros us y i [H|H] Hi; [injection H as <- <-|apply (A us y i H Hi)]. rewrite B; [apply G1, Hi|]. apply D. apply nth_In, Hi.
        -- intros k Hk. rewrite in_app_iff in Hk. rewrite B, O1 by tauto. reflexivity.
    + intro H. destruct (v_set_binary_unsigned ws x v) as [v1| |] eqn:E1; cbn [obind]; [|reflexivity|].
      * assert (P : x < 2 ^ Z.of_nat (length ws) /\ NoDup ws /\ (forall k, In k ws -> m_get k v = None)).
        { destruct (Z_lt_dec x (2 ^ Z.of_nat (length ws))) as [Lx|Lx]; [|discriminate S2; tauto].
          destruct (ListDec.NoDup_dec Nat.eq_dec ws) as [Nw|Nw]; [|discriminate S2; tauto].
          split; [exact Lx|]. split; [exact Nw|]. intros k Hk. destruct (m_get k v) eqn:Gk; [|reflexivity]. discriminate S2.
          intros (_ & _ & Q). rewrite (Q k Hk) in Gk. discriminate. }
        destruct (S1 P) as (v2 & E2 & G1 & O1). assert (v2 = v1) by congruence. subst v2. destruct P as (P1 & P2 & P3).
        apply (IH v1 Hl). intros (N2 & F2 & Fr). apply H. split.
        -- apply ND2. split; [exact P2|]. split; [exact N2|]. intros k Hk I. specialize (Fr k I).
           destruct (In_nth ws k 0%nat Hk) as (i & Li & <-). rewrite (G1 i Li) in Fr. discriminate.
        -- split; [constructor; assumption|]. intros k Hk. apply in_app_or in Hk. destruct Hk as [Hk|Hk]; [apply P3, Hk|].
           destruct (in_dec Nat.eq_dec k ws) as [I|I]; [apply P3, I|]. rewrite <- (O1 k I). apply Fr, Hk.
      * exfalso. unfold v_set_binary_unsigned in E1. destruct (zbits x <=? length ws)%nat; cbn [oassert obind] in E1; [|discriminate E1].
        revert E1. generalize (enumerate ws). intro es. generalize v. induction es as [|[j k] es IHe]; intros u Eu; cbn [ofold] in Eu; [discriminate Eu|].
        unfold v_set_boolean, v_set in Eu. cbn [fst snd] in Eu. destruct (m_get k u); cbn [obind] in Eu; [discriminate Eu|]. exact (IHe _ Eu).
Qed.

Theorem C74_binary_values : forall (F : Field) l, Forall (fun wx => 0 <= snd wx) l ->
  let ok := NoDup (ONE :: concat (map fst l)) /\ Forall (fun wx => snd wx < 2 ^ Z.of_nat (length (fst wx))) l in
  (ok -> exists v, binary_unsigned_values_macro l = Ok v /\ m_get ONE v = Some 1 /\
     (forall ws x, In (ws, x) l -> exists bits, map (fun k => m_get k v) ws = map Some bits /\ Forall is_bit bits /\ bits_val bits = x) /\
     (forall k, ~ In k (ONE :: concat (map fst l)) -> m_get k v = None)) /\
  (~ ok -> binary_unsigned_values_macro l = Panic).
Proof.
  intros F l Hn ok. destruct (set_binary_all l v_new Hn) as [H1 H2]. split.
  - intros [ND Fit]. inversion ND as [|? ? N ND']; subst. destruct H1 as (v & E & A & B); [split; [exact ND'|]; split; [exact Fit|]|].
    + intros k Hk. cbn. destruct (Nat.eqb_spec k ONE) as [->|]; [contradiction|reflexivity].
    + exists v. split; [exact E|]. split; [rewrite B by exact N; reflexivity|]. split.
      * intros ws x I. exists (map (fun i => (x / 2 ^ Z.of_nat i) mod 2) (seq 0 (length ws))). rewrite Forall_forall in Hn, Fit.
        specialize (Hn _ I). specialize (Fit _ I). cbn [fst snd] in Hn, Fit. split.
        -- rewrite map_map. apply nth_ext with (d := None) (d' := None); [rewrite !map_length, seq_length; reflexivity|].
           intros i Hi. rewrite map_length in Hi. rewrite (nth_indep _ None (m_get 0%nat v)) by (rewrite map_length; exact Hi). rewrite (map_nth (fun k => m_get k v)), (A ws x i I Hi).
           rewrite (nth_indep _ None (Some ((x / 2 ^ Z.of_nat 0) mod 2))) by (rewrite map_length, seq_length; exact Hi).
           rewrite (map_nth (fun i => Some ((x / 2 ^ Z.of_nat i) mod 2))), seq_nth by exact Hi. reflexivity.
        -- split; [apply Forall_forall; intros c Hc; apply in_map_iff in Hc; destruct Hc as (i & <- & _); unfold is_bit; pose proof (Z.mod_pos_bound (x / 2 ^ Z.of_nat i) 2); lia|].
           rewrite (map_ext _ (fun i => b2z (zbit x i))); [rewrite bits_val_testbit by exact Hn; apply Z.mod_small; lia|].
           intro i. unfold zbit. rewrite <- Z.testbit_spec' by lia. destruct (Z.testbit x (Z.of_nat i)); reflexivity.
      * intros k Hk. rewrite B by (intro; apply Hk; right; assumption).
        cbn. destruct (Nat.eqb_spec k ONE) as [->|]; [exfalso; apply Hk; left; reflexivity|reflexivity].
  - intro N. apply H2. intros (ND & Fit & Fr). apply N. split; [|exact Fit]. constructor; [|exact ND]. intro I. discriminate (Fr ONE I).
Qed.
Print Assumptions C74_binary_values.

Example C74_example : let F : Field := F97 in
  (let! v := values_macro [(3%nat, 5); (1%nat, 90)] in Ok (map (fun k => m_get k v) (seq 0 5))) = Ok [Some 1; Some 90; None; Some 5; None] /\
  values_macro [(3%nat, 5); (3%nat, 5)] = Panic /\ boolean_values_macro [(0%nat, true)] = Panic /\
  (let! v := binary_unsigned_values_macro [([2%nat; 4%nat; 1%nat], 6); ([5%nat], 1)] in Ok (map (fun k => m_get k v) (seq 0 6)))
    = Ok [Some 1; Some 1; Some 0; None; Some 1; Some 1] /\
  binary_unsigned_values_macro [([2%nat; 4%nat], 6)] = Panic.
Proof. vm_compute. auto. Qed.
