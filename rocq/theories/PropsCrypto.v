(** C42-C50, C55, C58: permutations, ciphers, hashes, Merkle trees, sponges, matrices, LCG, evaluation
    helpers and string helpers. *)
From Coq Require String Ascii.
From Coq Require Import ZArith List Bool Arith Lia Znumtheory Permutation.
From Verif Require Import Base FieldM FieldP ExprM BuilderM GadgetsM CryptoM Spec SpecCrypto ExprP BitsP MonoP LocalP
  SoundP CmpP GadgetSoundP HonestP ExecP CoreP CompleteP CmpCompleteP GadgetCompleteP SatP ForgeP Demo PropLib CryptoP SpongeP MatrixP MiscP.
Import ListNotations.
Open Scope Z_scope.

Notation wv vals := (ev (input_witness vals)).

(** ** helpers *)
Section Helpers.
Context {F : Field} (Hp : prime order).

Lemma runs1 vals m f x : good_inputs vals -> on_inputs vals x -> completes1 m f ->
  runs vals (m x) (fun r v => e_evaluate v r = Ok (f (wv vals x))).
Proof using Hp. intros Hv Hx H. apply (to_runs1 Hp); [exact Hv|]. apply H, has_input, Hx. Qed.
Lemma runs2 vals m f x y : good_inputs vals -> on_inputs vals x -> on_inputs vals y -> completes2 m f ->
  runs vals (m x y) (fun r v => e_evaluate v r = Ok (f (wv vals x) (wv vals y))).
Proof using Hp. intros Hv Hx Hy H. apply (to_runs1 Hp); [exact Hv|]. apply H; apply has_input; assumption. Qed.
Lemma ev_field w e : infield (ev w e).
Proof using Hp. apply Z.mod_pos_bound. pose proof (prime_ge2 Hp). lia. Qed.

Lemma mimc_new_inv cs c : mimc_new cs = Ok c -> 3 < order /\ Z.gcd (order - 1) 3 = 1 /\
  c = mkBC (mimc_encrypt cs (monomial 3)) (mimc_decrypt cs (monomial 3)).
Proof using Hp.
  pose proof (prime_ge2 Hp). unfold mimc_new, el_from. destruct (Z.ltb_spec 3 order) as [L|]; cbn [obind]; [|discriminate].
  rewrite (monomial_new_ok Hp) by (unfold infield; lia). destruct (Z.eqb_spec (Z.gcd (order - 1) 3) 1) as [G|]; cbn [obind]; [|discriminate].
  intro E. injection E as <-. auto.
Qed.

Lemma mimc_facts cs c : Forall infield cs -> mimc_new cs = Ok c -> exists g : Z -> Z,
  computes2 (encrypt c) (mimc_fun 3 cs) /\ completes2 (encrypt c) (mimc_fun 3 cs) /\
  computes2 (decrypt c) (mdec g cs) /\ completes2 (decrypt c) (mdec g cs) /\
  (forall k x, infield x -> mdec g cs k (mimc_fun 3 cs k x) = x) /\
  (forall k y, infield y -> mimc_fun 3 cs k (mdec g cs k y) = y).
Proof using Hp.
  intros Hc E. apply mimc_new_inv in E. destruct E as (L & G & ->). cbn [encrypt decrypt].
  destruct (monomial_is_permutation Hp 3 ltac:(lia) G) as (g & P1 & P2 & P3 & P4 & P5). exists g.
  assert (X : forall k x, mimc_fun 3 cs k x = menc (fun a => (a ^ 3) mod order) cs k x) by (intros; apply (mimc_fun_menc Hp)).
  assert (E1 : computes2 (mimc_encrypt cs (monomial 3)) (menc (fun a => (a ^ 3) mod order) cs)) by (apply (computes2_mimc_encrypt Hp); assumption).
  assert (E2 : completes2 (mimc_encrypt cs (monomial 3)) (menc (fun a => (a ^ 3) mod order) cs)) by (apply (completes2_mimc_encrypt Hp); assumption).
  split; [|split; [|split; [|split; [|split]]]].
  - destruct E1 as [M S]. split; [exact M|]. intros x y. intros b r b' w E Hw Hs. rewrite X. exact (S x y b r b' w E Hw Hs).
  - intros D P s x y a b Hx Hy. rewrite X. apply E2; assumption.
  - apply (computes2_mimc_decrypt Hp); assumption.
  - apply (completes2_mimc_decrypt Hp); assumption.
  - intros k x Ix. rewrite X. apply (mdec_menc Hp _ _ P5). exact Ix.
  - intros k y Iy. rewrite X. apply (menc_mdec Hp _ _ P5). exact Iy.
Qed.

Lemma compose2_sound m1 m2 f1 f2 k x : computes2 m1 f1 -> computes2 m2 f2 ->
  sound_call (y <- m1 k x ;; m2 k y) (fun w r => ev w r = f2 (ev w k) (f1 (ev w k) (ev w x))).
Proof using.
  intros H1 H2. apply to_call. intros w Hw. eapply sound_bind; [apply (computes2_snd m1 f1); assumption|intro; apply H2|].
  cbv beta. intros y Ey. rewrite <- Ey. apply (computes2_snd m2 f2); assumption.
Qed.
Lemma compose2_runs vals m1 m2 f1 f2 k x : good_inputs vals -> on_inputs vals k -> on_inputs vals x -> completes2 m1 f1 -> completes2 m2 f2 ->
  runs vals (y <- m1 k x ;; m2 k y) (fun r v => e_evaluate v r = Ok (f2 (wv vals k) (f1 (wv vals k) (wv vals x)))).
Proof using Hp.
  intros Hv Hk Hx H1 H2. apply (to_runs1 Hp); [exact Hv|]. apply has_input in Hk, Hx.
  eapply comp_bind; [apply H1; [exact Hk|exact Hx]|]. cbv beta. intros y P s X G [-> Hy]. carry. apply H2; [exact Hk|exact Hy].
Qed.
End Helpers.

(** ** C42: monomial permutations *)
Theorem C42_new : forall (F : Field), prime order -> forall n, 0 <= n < order ->
  monomial_new n = if Z.gcd n (order - 1) =? 1 then Ok n else Panic.
Proof. intros F Hp n Hn. rewrite Z.gcd_comm. apply (monomial_new_ok Hp). exact Hn. Qed.
Print Assumptions C42_new.

Theorem C42_permute : forall (F : Field), prime order -> forall n x, 0 <= n ->
  sound_call (permute (monomial n) x) (fun w r => ev w r = (ev w x ^ n) mod order).
Proof. intros F Hp n x Hn. apply (computes1_exp Hp n Hn). Qed.
Print Assumptions C42_permute.

Theorem C42_injective : forall (F : Field), prime order -> forall n, 1 <= n < order -> Z.gcd n (order - 1) = 1 ->
  forall a b, 0 <= a < order -> 0 <= b < order -> (a ^ n) mod order = (b ^ n) mod order -> a = b.
Proof. intros F Hp n Hn Hg a b Ha Hb E. rewrite Z.gcd_comm in Hg. exact (pow_inj_gcd Hp n a b Hn Hg Ha Hb E). Qed.
Print Assumptions C42_injective.

Theorem C42_inverse_of_permute : forall (F : Field), prime order -> forall n x, 1 <= n < order -> Z.gcd n (order - 1) = 1 ->
  sound_call (y <- permute (monomial n) x ;; p_inverse (monomial n) y) (fun w r => ev w r = ev w x).
Proof.
  intros F Hp n x Hn Hg. rewrite Z.gcd_comm in Hg. apply to_call. intros w Hw. cbn [permute p_inverse monomial].
  eapply sound_bind; [apply (snd_exponentiation Hp w Hw); lia|intro; apply mono_monomial_inverse|].
  cbv beta. intros y Ey. eapply sound_weaken; [apply (snd_monomial_inverse Hp w Hw); lia|]. cbv beta. intros r Er.
  apply (pow_inj_gcd Hp n); auto; try apply (ev_field Hp). rewrite Er. exact Ey.
Qed.
Print Assumptions C42_inverse_of_permute.

Theorem C42_permute_of_inverse : forall (F : Field), prime order -> forall n x, 0 <= n ->
  sound_call (y <- p_inverse (monomial n) x ;; permute (monomial n) y) (fun w r => ev w r = ev w x).
Proof.
  intros F Hp n x Hn. apply to_call. intros w Hw. cbn [permute p_inverse monomial].
  eapply sound_bind; [apply (snd_monomial_inverse Hp w Hw); lia|intro; apply mono_exponentiation|].
  cbv beta. intros y Ey. rewrite <- Ey. apply (snd_exponentiation Hp w Hw). exact Hn.
Qed.
Print Assumptions C42_permute_of_inverse.

(** Executing never fails for n >= 2 and inverse undoes permute.  Full statement (false): also for n = 1. *)
Theorem C42_runs_partial : forall (F : Field), prime order -> forall n vals x, 2 <= n < order -> Z.gcd n (order - 1) = 1 ->
  good_inputs vals -> on_inputs vals x ->
  runs vals (y <- permute (monomial n) x ;; p_inverse (monomial n) y) (fun r v => e_evaluate v r = Ok (wv vals x)) /\
  exists y, 0 <= y < order /\ (y ^ n) mod order = wv vals x /\ runs vals (p_inverse (monomial n) x) (fun r v => e_evaluate v r = Ok y).
Proof.
  intros F Hp n vals x Hn Hg Hv Hx. rewrite Z.gcd_comm in Hg. destruct (monomial_is_permutation Hp n Hn Hg) as (g & P1 & P2 & P3 & P4 & P5). split.
  - apply (to_runs1 Hp); [exact Hv|]. apply has_input in Hx. eapply comp_bind; [apply P3, Hx|]. cbv beta. intros y P s X G [-> Hy].
    destruct (P5 (wv vals x) (ev_field Hp _ _)) as (_ & _ & E & _). pose proof (P4 (fun k => (k <= length vals)%nat) [] s y _ Hy) as C. rewrite E in C. exact C.
  - exists (g (wv vals x)). destruct (P5 (wv vals x) (ev_field Hp _ _)) as (_ & I & _ & E). split; [exact I|]. split; [exact E|].
    apply (runs1 Hp); assumption.
Qed.
Print Assumptions C42_runs_partial.

(** n = 1 is accepted by [new] (gcd(1, p-1) = 1), but its inverse panics on every builder. *)
Theorem C42_inverse_of_one_panics_refuted : forall (F : Field), prime order -> 2 < order ->
  monomial_new 1 = Ok 1 /\ forall x b, p_inverse (monomial 1) x b = Panic.
Proof.
  intros F Hp H2. split.
  - rewrite (monomial_new_ok Hp) by (unfold infield; lia). rewrite Z.gcd_1_r. reflexivity.
  - intros x b. exact (monomial_inverse_one_panics Hp x b H2).
Qed.
Print Assumptions C42_inverse_of_one_panics_refuted.

Example C42_example : let F : Field := F11 in
  monomial_new 3 = Ok 3 /\ monomial_new 5 = Panic /\
  demo [7] (permute (monomial 3) (e_wire 1)) (fun r => [r]) = Ok (true, [2]) /\
  demo [2] (p_inverse (monomial 3) (e_wire 1)) (fun r => [r]) = Ok (true, [7]).
Proof. vm_compute. auto. Qed.
Example C42_example_sat : let F : Field := F11 in
  sat_case (y <- permute (monomial 3) (e_wire 1) ;; p_inverse (monomial 3) y) (fun w r => ev w r =? 7).
Proof. intro F. apply demo_check_ok with (vals := [7]). vm_compute. reflexivity. Qed.

(** ** C43: MiMC *)
Theorem C43_new : forall (F : Field), prime order -> forall cs,
  (3 < order /\ Z.gcd 3 (order - 1) = 1 -> exists c, mimc_new cs = Ok c) /\
  (~ (3 < order /\ Z.gcd 3 (order - 1) = 1) -> mimc_new cs = Panic).
Proof.
  intros F Hp cs. unfold mimc_new, el_from. split.
  - intros [L G]. destruct (Z.ltb_spec 3 order); [|lia]. cbn [obind]. rewrite (monomial_new_ok Hp) by (unfold infield; lia).
    rewrite Z.gcd_comm, G. eexists. reflexivity.
  - intros N. destruct (Z.ltb_spec 3 order) as [L|]; [|reflexivity]. cbn [obind]. rewrite (monomial_new_ok Hp) by (unfold infield; lia).
    destruct (Z.eqb_spec (Z.gcd (order - 1) 3) 1) as [G|]; [|reflexivity]. rewrite Z.gcd_comm in G. tauto.
Qed.
Print Assumptions C43_new.

Theorem C43_encrypt_value : forall (F : Field), prime order -> forall cs c, good_inputs cs -> mimc_new cs = Ok c -> forall k x,
  sound_call (encrypt c k x) (fun w r => ev w r = mimc_fun 3 cs (ev w k) (ev w x)).
Proof. intros F Hp cs c Hc E k x. destruct (mimc_facts Hp cs c Hc E) as (g & A & _). apply A. Qed.
Print Assumptions C43_encrypt_value.

Theorem C43_decrypt_encrypt : forall (F : Field), prime order -> forall cs c, good_inputs cs -> mimc_new cs = Ok c -> forall k x,
  sound_call (y <- encrypt c k x ;; decrypt c k y) (fun w r => ev w r = ev w x) /\
  sound_call (y <- decrypt c k x ;; encrypt c k y) (fun w r => ev w r = ev w x).
Proof.
  intros F Hp cs c Hc E k x. destruct (mimc_facts Hp cs c Hc E) as (g & A & _ & B & _ & D1 & D2). split.
  - intros b r b' w Er Hw Hs. rewrite (compose2_sound _ _ _ _ k x A B b r b' w Er Hw Hs). apply D1, (ev_field Hp).
  - intros b r b' w Er Hw Hs. rewrite (compose2_sound _ _ _ _ k x B A b r b' w Er Hw Hs). apply D2, (ev_field Hp).
Qed.
Print Assumptions C43_decrypt_encrypt.

Theorem C43_runs : forall (F : Field), prime order -> forall cs c, good_inputs cs -> mimc_new cs = Ok c -> forall vals k x,
  good_inputs vals -> on_inputs vals k -> on_inputs vals x ->
  runs vals (encrypt c k x) (fun r v => e_evaluate v r = Ok (mimc_fun 3 cs (wv vals k) (wv vals x))) /\
  runs vals (y <- encrypt c k x ;; decrypt c k y) (fun r v => e_evaluate v r = Ok (wv vals x)) /\
  runs vals (y <- decrypt c k x ;; encrypt c k y) (fun r v => e_evaluate v r = Ok (wv vals x)).
Proof.
  intros F Hp cs c Hc E vals k x Hv Hk Hx. destruct (mimc_facts Hp cs c Hc E) as (g & _ & A & _ & B & D1 & D2). split; [|split].
  - apply (runs2 Hp); assumption.
  - pose proof (compose2_runs Hp vals _ _ _ _ k x Hv Hk Hx A B) as R. rewrite D1 in R by apply (ev_field Hp). exact R.
  - pose proof (compose2_runs Hp vals _ _ _ _ k x Hv Hk Hx B A) as R. rewrite D2 in R by apply (ev_field Hp). exact R.
Qed.
Print Assumptions C43_runs.

(** Encryption under a fixed key is injective and onto. *)
Theorem C43_permutation : forall (F : Field), prime order -> forall cs c, good_inputs cs -> mimc_new cs = Ok c -> forall k,
  (forall x x', 0 <= x < order -> 0 <= x' < order -> mimc_fun 3 cs k x = mimc_fun 3 cs k x' -> x = x') /\
  (forall y, 0 <= y < order -> exists x, mimc_fun 3 cs k x = y).
Proof.
  intros F Hp cs c Hc E k. destruct (mimc_facts Hp cs c Hc E) as (g & _ & _ & _ & _ & D1 & D2). split.
  - intros x x' Hx Hx' Ex. rewrite <- (D1 k x Hx), <- (D1 k x' Hx'), Ex. reflexivity.
  - intros y Hy. exists (mdec g cs k y). apply D2, Hy.
Qed.
Print Assumptions C43_permutation.

(** MiMC with exponent 3 is not available over the two shipped fields: 3 divides both orders minus 1. *)
Theorem C43_shipped_fields_panic : forall cs fuel,
  @mimc_new Bn128 cs = Panic /\ @mimc_new Bls12_381 cs = Panic /\
  (forall c, @mimc_default Bn128 fuel <> Ok c) /\ (forall c, @mimc_default Bls12_381 fuel <> Ok c).
Proof.
  assert (A : forall cs, @mimc_new Bn128 cs = Panic).
  { intro cs. unfold mimc_new. replace (@monomial_new Bn128 3) with (@Panic Z) by (vm_compute; reflexivity). reflexivity. }
  assert (B : forall cs, @mimc_new Bls12_381 cs = Panic).
  { intro cs. unfold mimc_new. replace (@monomial_new Bls12_381 3) with (@Panic Z) by (vm_compute; reflexivity). reflexivity. }
  intros cs fuel. split; [apply A|]. split; [apply B|]. split; intros c; unfold mimc_default; destruct (lcg_elements _ _ _); cbn [obind]; rewrite ?A, ?B; discriminate.
Qed.
Print Assumptions C43_shipped_fields_panic.

Example C43_example : let F : Field := F11 in
  match mimc_new [4; 9; 2] with
  | Ok c => demo [5; 7] (encrypt c (e_wire 1) (e_wire 2)) (fun r => [r]) = Ok (true, [mimc_fun 3 [4; 9; 2] 5 7]) /\
            demo [5; mimc_fun 3 [4; 9; 2] 5 7] (decrypt c (e_wire 1) (e_wire 2)) (fun r => [r]) = Ok (true, [7])
  | _ => False
  end.
Proof. vm_compute. auto. Qed.
Example C43_example_sat : let F : Field := F11 in let cs := [4; 9; 2] in
  mimc_new cs = Ok (mkBC (mimc_encrypt cs (monomial 3)) (mimc_decrypt cs (monomial 3))) /\
  sat_case (y <- mimc_encrypt cs (monomial 3) (e_wire 1) (e_wire 2) ;; mimc_decrypt cs (monomial 3) (e_wire 1) y) (fun w r => ev w r =? 7).
Proof. intros F cs. split; [reflexivity|]. apply demo_check_ok with (vals := [5; 7]). vm_compute. reflexivity. Qed.

(** ** C44 *)
Theorem C44_davies_meyer : forall (F : Field), prime order -> forall c E, computes2 (encrypt c) E -> forall x y,
  sound_call (davies_meyer c x y) (fun w r => ev w r = (E (ev w y) (ev w x) + ev w x) mod order).
Proof. intros F Hp c E H x y. apply (computes2_davies_meyer Hp c E H). Qed.
Print Assumptions C44_davies_meyer.
Theorem C44_miyaguchi_preneel : forall (F : Field), prime order -> forall c E, computes2 (encrypt c) E -> forall x y,
  sound_call (miyaguchi_preneel c x y) (fun w r => ev w r = (E (ev w x) (ev w y) + ev w x + ev w y) mod order).
Proof. intros F Hp c E H x y. apply (computes2_miyaguchi_preneel Hp c E H). Qed.
Print Assumptions C44_miyaguchi_preneel.

(** With MiMC: every run succeeds with that value. *)
Theorem C44_mimc_runs : forall (F : Field), prime order -> forall cs c, good_inputs cs -> mimc_new cs = Ok c -> forall vals x y,
  good_inputs vals -> on_inputs vals x -> on_inputs vals y ->
  runs vals (davies_meyer c x y) (fun r v => e_evaluate v r = Ok ((mimc_fun 3 cs (wv vals y) (wv vals x) + wv vals x) mod order)) /\
  runs vals (miyaguchi_preneel c x y) (fun r v => e_evaluate v r = Ok ((mimc_fun 3 cs (wv vals x) (wv vals y) + wv vals x + wv vals y) mod order)).
Proof.
  intros F Hp cs c Hc E vals x y Hv Hx Hy. destruct (mimc_facts Hp cs c Hc E) as (g & _ & A & _). split.
  - apply (runs2 Hp vals (davies_meyer c) (fun a b => (mimc_fun 3 cs b a + a) mod order)); auto. apply (completes2_davies_meyer Hp), A.
  - apply (runs2 Hp vals (miyaguchi_preneel c) (fun a b => (mimc_fun 3 cs a b + a + b) mod order)); auto. apply (completes2_miyaguchi_preneel Hp), A.
Qed.
Print Assumptions C44_mimc_runs.

(** The hypothesis [computes2] is met by MiMC. *)
Theorem C44_mimc_computes : forall (F : Field), prime order -> forall cs c, good_inputs cs -> mimc_new cs = Ok c ->
  computes2 (encrypt c) (mimc_fun 3 cs).
Proof. intros F Hp cs c Hc E. destruct (mimc_facts Hp cs c Hc E) as (g & A & _). exact A. Qed.
Print Assumptions C44_mimc_computes.

Example C44_example : let F : Field := F11 in
  match mimc_new [4; 9; 2] with
  | Ok c => demo [5; 7] (davies_meyer c (e_wire 1) (e_wire 2)) (fun r => [r]) = Ok (true, [(mimc_fun 3 [4; 9; 2] 7 5 + 5) mod 11]) /\
            demo [5; 7] (miyaguchi_preneel c (e_wire 1) (e_wire 2)) (fun r => [r]) = Ok (true, [(mimc_fun 3 [4; 9; 2] 5 7 + 12) mod 11])
  | _ => False
  end.
Proof. vm_compute. auto. Qed.

(** ** C45 *)
Theorem C45_value : forall (F : Field), prime order -> forall iv m H blocks, 0 <= iv < order -> computes2 m H ->
  sound_call (merkle_damgard iv m blocks) (fun w r => Z.of_nat (length blocks) < order /\ ev w r = md_fun H iv (map (ev w) blocks)).
Proof. intros F Hp iv m H blocks Iv Hm. apply to_call. intros w Hw. apply (snd_merkle_damgard Hp w Hw); assumption. Qed.
Print Assumptions C45_value.

Theorem C45_collision : forall (H : Z -> Z -> Z) iv l1 l2, l1 <> l2 -> md_fun H iv l1 = md_fun H iv l2 ->
  collision H (md_calls H iv l1) (md_calls H iv l2).
Proof. intros H iv l1 l2. apply md_collision. Qed.
Print Assumptions C45_collision.

(** In circuit: if two hashes are asserted equal, every satisfying assignment either has equal block lists or
    contains a collision of the compression function among the values it computes. *)
Theorem C45_gadget_collision : forall (F : Field), prime order -> forall iv m H b1 b2, 0 <= iv < order -> computes2 m H ->
  sound_call (h1 <- merkle_damgard iv m b1 ;; h2 <- merkle_damgard iv m b2 ;; assert_equal h1 h2) (fun w _ =>
    map (ev w) b1 = map (ev w) b2 \/ collision H (md_calls H iv (map (ev w) b1)) (md_calls H iv (map (ev w) b2))).
Proof.
  intros F Hp iv m H b1 b2 Iv Hm. assert (M : forall x y, mono (m x y)) by apply Hm. apply to_call. intros w Hw.
  eapply sound_bind; [apply (snd_merkle_damgard Hp w Hw iv m H); assumption|intro; apply mono_bind; [apply mono_merkle_damgard, M|intro; auto with mono]|].
  cbv beta. intros h1 [_ E1]. eapply sound_bind; [apply (snd_merkle_damgard Hp w Hw iv m H); assumption|intro; auto with mono|].
  cbv beta. intros h2 [_ E2]. eapply sound_weaken; [apply (snd_assert_equal Hp w Hw)|]. cbv beta. intros _ E.
  destruct (list_eq_dec Z.eq_dec (map (ev w) b1) (map (ev w) b2)) as [|N]; [left; assumption|right].
  apply md_collision; [exact N|congruence].
Qed.
Print Assumptions C45_gadget_collision.

Theorem C45_mimc_runs : forall (F : Field), prime order -> forall cs c iv, good_inputs cs -> mimc_new cs = Ok c -> 0 <= iv < order ->
  forall vals blocks, good_inputs vals -> on_inputs_all vals blocks -> Z.of_nat (length blocks) < order ->
  runs vals (merkle_damgard iv (davies_meyer c) blocks) (fun r v => e_evaluate v r =
    Ok (md_fun (fun a b => (mimc_fun 3 cs b a + a) mod order) iv (map (wv vals) blocks))).
Proof.
  intros F Hp cs c iv Hc E Iv vals blocks Hv Hb L. destruct (mimc_facts Hp cs c Hc E) as (g & _ & A & _).
  apply (to_runs1 Hp); [exact Hv|]. apply (cmpl_merkle_damgard Hp); [exact Iv| |apply hasl_input; exact Hb|exact L].
  apply (completes2_davies_meyer Hp), A.
Qed.
Print Assumptions C45_mimc_runs.

(** As many blocks as the order or more: [Expression::from(usize)] panics. *)
Theorem C45_too_long_never_ok : forall (F : Field) iv m blocks b r, order <= Z.of_nat (length blocks) ->
  merkle_damgard iv m blocks b <> Ok r.
Proof.
  intros F iv m blocks b r L E. unfold merkle_damgard, bbind in E. destruct (bfold _ blocks (e_const iv) b) as [[c b1]| |]; try discriminate.
  cbn [obind] in E. unfold blift, e_from_uint, el_from in E. destruct (Z.ltb_spec (Z.of_nat (length blocks)) order); [lia|discriminate].
Qed.
Print Assumptions C45_too_long_never_ok.

Example C45_example : let F : Field := F11 in
  match mimc_new [4; 9; 2] with
  | Ok c => demo [5; 7; 1] (merkle_damgard 3 (davies_meyer c) [e_wire 1; e_wire 2; e_wire 3]) (fun r => [r]) =
            Ok (true, [md_fun (fun a b => (mimc_fun 3 [4; 9; 2] b a + a) mod 11) 3 [5; 7; 1]])
  | _ => False
  end.
Proof. vm_compute. auto. Qed.
(** Two different messages with the same hash in a small field, and the collision they contain. *)
Example C45_example_collision : let H := fun a b => (a * 3 + b * b) mod 7 in
  md_fun H 1 [2; 3] = md_fun H 1 [2; 4] /\ H 0 3 = H 0 4 /\ In (0, 3) (md_calls H 1 [2; 3]) /\ In (0, 4) (md_calls H 1 [2; 4]).
Proof. vm_compute. auto 10. Qed.

(** ** C46 *)
Theorem C46_root_value : forall (F : Field), prime order -> forall m H leaf path, computes2 m H ->
  sound_call (merkle_tree_root m leaf path) (fun w r => bin_ok w (prefix path) ->
    ev w r = path_fun H (ev w leaf) (map (ev w) (prefix path)) (map (ev w) (siblings path))).
Proof.
  intros F Hp m H leaf path Hm b r b' w E Hw Hs Hb. exact (snd_merkle_root Hp w Hw m H leaf path Hm Hb b r b' E Hs).
Qed.
Print Assumptions C46_root_value.

(** Membership: every satisfying assignment has the root equal to the hash path ... *)
Theorem C46_membership_sound : forall (F : Field), prime order -> forall m H leaf root path, computes2 m H ->
  sound_call (assert_merkle_tree_membership m leaf root path) (fun w _ => bin_ok w (prefix path) ->
    ev w root = path_fun H (ev w leaf) (map (ev w) (prefix path)) (map (ev w) (siblings path))).
Proof.
  intros F Hp m H leaf root path Hm b r b' w E Hw Hs Hb. exact (snd_merkle_membership Hp w Hw m H leaf root path Hm Hb b r b' E Hs).
Qed.
Print Assumptions C46_membership_sound.

(** ... and whenever it is, executing succeeds. *)
Theorem C46_membership_complete : forall (F : Field), prime order -> forall m H vals leaf root path, completes2 m H ->
  good_inputs vals -> on_inputs vals leaf -> on_inputs vals root -> on_inputs_all vals (prefix path) -> on_inputs_all vals (siblings path) ->
  bin_ok (input_witness vals) (prefix path) ->
  wv vals root = path_fun H (wv vals leaf) (map (wv vals) (prefix path)) (map (wv vals) (siblings path)) ->
  runs vals (assert_merkle_tree_membership m leaf root path) (fun _ _ => True).
Proof.
  intros F Hp m H vals leaf root path Hm Hv Hl Hr Hb Hs Bb E. apply (to_runs0 Hp); [exact Hv|].
  eapply (cmpl_merkle_membership Hp); [exact Hm|apply has_input, Hl|apply hasl_input, Hb|apply hasl_input, Hs| |].
  - apply Forall_map. exact Bb.
  - rewrite <- E. apply has_input, Hr.
Qed.
Print Assumptions C46_membership_complete.

Theorem C46_mimc_membership_complete : forall (F : Field), prime order -> forall cs c, good_inputs cs -> mimc_new cs = Ok c ->
  forall vals leaf root path,
  good_inputs vals -> on_inputs vals leaf -> on_inputs vals root -> on_inputs_all vals (prefix path) -> on_inputs_all vals (siblings path) ->
  bin_ok (input_witness vals) (prefix path) ->
  wv vals root = path_fun (fun a b => (mimc_fun 3 cs b a + a) mod order) (wv vals leaf) (map (wv vals) (prefix path)) (map (wv vals) (siblings path)) ->
  runs vals (assert_merkle_tree_membership (davies_meyer c) leaf root path) (fun _ _ => True).
Proof.
  intros F Hp cs c Hc E vals leaf root path Hv Hl Hr Hb Hs Bb Er. destruct (mimc_facts Hp cs c Hc E) as (g & _ & A & _).
  eapply (C46_membership_complete F Hp); eauto. apply (completes2_davies_meyer Hp), A.
Qed.
Print Assumptions C46_mimc_membership_complete.

Theorem C46_same_index_collision : forall (H : Z -> Z -> Z) bits l1 l2 s1 s2, Forall is_bit bits ->
  length s1 = length bits -> length s2 = length bits -> path_fun H l1 bits s1 = path_fun H l2 bits s2 -> l1 <> l2 ->
  collision H (path_calls H l1 bits s1) (path_calls H l2 bits s2).
Proof.
  intros H bits l1 l2 s1 s2 Hb L1 L2 E N. destruct (path_collision H bits l1 l2 s1 s2 Hb L1 L2 E) as [[E' _]|C]; [contradiction|exact C].
Qed.
Print Assumptions C46_same_index_collision.

(** Against a real tree: a path accepted for the root of a full binary tree proves the leaf at its index, and
    the siblings are the tree's, unless it contains a collision with the hashes of the tree. *)
Theorem C46_tree_binding : forall (H : Z -> Z -> Z) bits leaf sibs leaves, Forall is_bit bits ->
  length sibs = length bits -> length leaves = (2 ^ length bits)%nat ->
  path_fun H leaf bits sibs = tree_root H (length bits) leaves ->
  (leaf = nth (bits_index bits) leaves 0 /\ sibs = tree_path H (length bits) leaves (bits_index bits)) \/
  collision H (path_calls H leaf bits sibs) (tree_calls H (length bits) leaves).
Proof. exact tree_binding. Qed.
Print Assumptions C46_tree_binding.

(** Every leaf of a full tree has a path to its root. *)
Theorem C46_tree_path : forall (H : Z -> Z -> Z) bits leaves, Forall is_bit bits -> length leaves = (2 ^ length bits)%nat ->
  path_fun H (nth (bits_index bits) leaves 0) bits (tree_path H (length bits) leaves (bits_index bits)) = tree_root H (length bits) leaves.
Proof. exact tree_path_root. Qed.
Print Assumptions C46_tree_path.

Theorem C46_path_new : forall prefix siblings,
  merkle_path_new prefix siblings = if (length prefix =? length siblings)%nat then Ok (mkPath prefix siblings) else Panic.
Proof. intros prefix siblings. unfold merkle_path_new. destruct (_ =? _)%nat; reflexivity. Qed.
Print Assumptions C46_path_new.

Example C46_example : let F : Field := F11 in let H := fun a b => (mimc_fun 3 [4; 9] b a + a) mod 11 in
  let leaves := [3; 1; 4; 1; 5; 9; 2; 6] in let root := tree_root H 3 leaves in
  match mimc_new [4; 9] with
  | Ok c => demo ([5; root] ++ [0; 0; 1] ++ tree_path H 3 leaves 4)
      (assert_merkle_tree_membership (davies_meyer c) (e_wire 1) (e_wire 2) (mkPath (map e_wire [3; 4; 5]%nat) (map e_wire [6; 7; 8]%nat))) (fun _ => []) = Ok (true, [])
  | _ => False
  end.
Proof. vm_compute. auto. Qed.

(** ** C47 *)
Theorem C47_new : forall p r c, sponge_new p r c = if (r + c =? mp_width p)%nat then Ok (mkSponge p r c) else Panic.
Proof. intros p r c. unfold sponge_new. destruct (_ =? _)%nat; reflexivity. Qed.
Print Assumptions C47_new.

Theorem C47_value : forall (F : Field), prime order -> forall s p inputs n,
  computesl (mp_permute (sp_perm s)) (bitrate s + capacity s) p ->
  sound_call (sponge_evaluate s inputs n) (fun w res =>
    length res = n /\ map (ev w) res = sponge_fun p (bitrate s) (capacity s) (map (ev w) inputs) n).
Proof.
  intros F Hp s p inputs n H. apply to_call. intros w Hw. eapply (snd_sponge Hp); eauto.
Qed.
Print Assumptions C47_value.

Theorem C47_prefix : forall (F : Field) p r c l n m, (n <= m)%nat -> (0 < r)%nat ->
  (forall l, length l = (r + c)%nat -> length (p l) = (r + c)%nat) ->
  firstn n (sponge_fun p r c l m) = sponge_fun p r c l n.
Proof. intros F. apply sponge_fun_prefix. Qed.
Print Assumptions C47_prefix.

(** Inputs of the same length are never confused by the padding: the absorbed blocks determine them.
    Full statement (false): also inputs of different lengths are not confused. *)
Theorem C47_padding_same_length_partial : forall r l1 l2, (0 < r)%nat -> length l1 = length l2 ->
  padded_blocks r l1 = padded_blocks r l2 -> l1 = l2.
Proof. intros r l1 l2 Hr. apply padding_injective. exact Hr. Qed.
Print Assumptions C47_padding_same_length_partial.

(** Whenever the last block is not full, appending a zero does not change any output: for every
    permutation, bitrate, capacity and output length. *)
Theorem C47_padding_confuses_refuted : forall (F : Field), prime order -> forall s p inputs n,
  computesl (mp_permute (sp_perm s)) (bitrate s + capacity s) p -> (length inputs mod bitrate s <> 0)%nat -> (0 < bitrate s)%nat ->
  sound_call (o1 <- sponge_evaluate s inputs n ;; o2 <- sponge_evaluate s (inputs ++ [e_zero]) n ;; bret (o1, o2))
    (fun w r => map (ev w) (fst r) = map (ev w) (snd r)).
Proof.
  intros F Hp s p inputs n H Hm Hr. apply to_call. intros w Hw.
  assert (M : forall xs k, mono (sponge_evaluate s xs k)).
  { intros xs k. unfold sponge_evaluate. assert (Mp : forall xs, mono (mp_permute (sp_perm s) xs)) by apply H.
    apply mono_bind; [auto with mono|intro cs]. apply mono_bind.
    - apply mono_bfold. intros st ch. apply mono_bind; [auto with mono|intro]. apply mono_sponge_step, Mp.
    - intros [i c0]. apply mono_bind; [apply mono_sponge_squeeze, Mp|intro; auto with mono]. }
  eapply sound_bind; [apply (snd_sponge Hp s p w Hw); exact H|intro; apply mono_bind; [apply M|intro; auto with mono]|].
  cbv beta. intros o1 [_ E1]. eapply sound_bind; [apply (snd_sponge Hp s p w Hw); exact H|intro; auto with mono|].
  cbv beta. intros o2 [_ E2]. apply sound_ret. cbn [fst snd]. rewrite E1, E2. unfold sponge_fun, absorb_all.
  rewrite map_app. cbn [map]. rewrite (ev_zero (prime_ge2 Hp)). rewrite padding_confuses; [reflexivity|exact Hr|rewrite map_length; exact Hm].
Qed.
Print Assumptions C47_padding_confuses_refuted.

(** With bitrate 0 [chunks] panics. *)
Theorem C47_zero_bitrate_panics : forall (F : Field) p c inputs n b, sponge_evaluate (mkSponge p 0 c) inputs n b = Panic.
Proof. intros F p c inputs n b. reflexivity. Qed.
Print Assumptions C47_zero_bitrate_panics.

(** ** Poseidon and Rescue as permutations on lists *)
Section MP.
Context {F : Field} (Hp : prime order).

Lemma poseidon_fun_length f full part mds l : length l = length mds -> length (poseidon_fun f full part mds l) = length mds.
Proof using.
  unfold poseidon_fun. generalize (seq 0 (full + part)) as rs. intro rs. revert l. induction rs as [|r rs IH]; intros l L; cbn [fold_left]; [exact L|].
  apply IH. rewrite row_scale_length. destruct (full_round full part r); [rewrite map_length|rewrite on_first_length]; lia.
Qed.
Lemma rescue_fun_length f g rounds mds l : length l = length mds -> length (rescue_fun f g rounds mds l) = length mds.
Proof using.
  unfold rescue_fun. generalize (seq 0 rounds) as rs. intro rs. revert l. induction rs as [|r rs IH]; intros l L; cbn [fold_left]; [exact L|].
  apply IH. rewrite !row_scale_length, !map_length, row_scale_length, map_length. lia.
Qed.

Lemma computesl_poseidon p n : pos_sbox p <> Inverse ->
  computesl (poseidon_permute p) n (poseidon_fun (sbox_fun (pos_sbox p)) (pos_full p) (pos_partial p) (pos_mds p)).
Proof using Hp.
  intro Hs. split; [intro xs; apply (mono_poseidon Hp)|]. intros ys _. apply to_call. intros w Hw.
  apply (snd_poseidon Hp); [exact Hw|]. apply (computes1_sbox Hp). exact Hs.
Qed.
(** The S-box is available: 3 or 5 is below the order and coprime to the order minus 1. *)
Definition sbox_available (sb : poseidon_sbox) : Prop :=
  match sb with Exponentiation3 => 3 < order /\ Z.gcd (order - 1) 3 = 1 | Exponentiation5 => 5 < order /\ Z.gcd (order - 1) 5 = 1 | Inverse => True end.
(** Parameters as built: an even number of full rounds, a square matrix of the size of the state. *)
Definition poseidon_ok (p : poseidon) : Prop :=
  (0 < pos_width p)%nat /\ length (pos_mds p) = pos_width p /\ (pos_full p mod 2 = 0)%nat /\ sbox_available (pos_sbox p).
Lemma completesl_poseidon p : 2 < order -> poseidon_ok p ->
  completesl (poseidon_permute p) (pos_width p) (poseidon_fun (sbox_fun (pos_sbox p)) (pos_full p) (pos_partial p) (pos_mds p)).
Proof using Hp.
  intros H2 (W & L & E & A) D P s xs l Lx Hl. apply (cmpl_poseidon Hp); auto; try lia. apply (completes1_sbox Hp); assumption.
Qed.
End MP.

(** Sponge over Poseidon: every run succeeds with the specified outputs. *)
Theorem C47_poseidon_runs : forall (F : Field), prime order -> 2 < order -> forall p r c vals inputs n,
  poseidon_ok p -> (0 < r)%nat -> (r + c = pos_width p)%nat -> good_inputs vals -> on_inputs_all vals inputs ->
  runs vals (sponge_evaluate (mkSponge (poseidon_mp p) r c) inputs n) (fun res v => omap (e_evaluate v) res =
    Ok (sponge_fun (poseidon_fun (sbox_fun (pos_sbox p)) (pos_full p) (pos_partial p) (pos_mds p)) r c (map (wv vals) inputs) n)).
Proof.
  intros F Hp H2 p r c vals inputs n Hok Hr Hw Hv Hi. apply (to_runsl Hp); [exact Hv|].
  apply (cmpl_sponge Hp (mkSponge (poseidon_mp p) r c)); cbn [bitrate capacity sp_perm poseidon_mp mp_permute]; [|exact Hr| |apply hasl_input, Hi].
  - intros l L. destruct Hok as (_ & Lm & _). rewrite poseidon_fun_length; lia.
  - rewrite Hw. apply (completesl_poseidon Hp); assumption.
Qed.
Print Assumptions C47_poseidon_runs.

Example C47_example : let F : Field := F97 in
  let p := mkPoseidon 3 2 3 Exponentiation5 [[2; 1; 1]; [1; 2; 1]; [1; 1; 3]] in let s := mkSponge (poseidon_mp p) 2 1 in
  let f := poseidon_fun (fun a => (a ^ 5) mod 97) 2 3 [[2; 1; 1]; [1; 2; 1]; [1; 1; 3]] in
  demo [5; 6; 7] (sponge_evaluate s [e_wire 1; e_wire 2; e_wire 3] 5) (fun r => r) = Ok (true, sponge_fun f 2 1 [5; 6; 7] 5) /\
  demo [5; 6; 7] (sponge_evaluate s [e_wire 1; e_wire 2; e_wire 3; e_zero] 5) (fun r => r) = Ok (true, sponge_fun f 2 1 [5; 6; 7] 5).
Proof. vm_compute. auto. Qed.
Example C47_example_hyps : let F : Field := F97 in
  let p := mkPoseidon 3 2 3 Exponentiation5 [[2; 1; 1]; [1; 2; 1]; [1; 1; 3]] in poseidon_ok p /\
  computesl (poseidon_permute p) 3 (poseidon_fun (sbox_fun Exponentiation5) 2 3 [[2; 1; 1]; [1; 2; 1]; [1; 1; 3]]).
Proof. intros F p. split; [vm_compute; repeat split; lia|]. apply (computesl_poseidon prime_F97 p 3). discriminate. Qed.

(** ** C48 *)
(** What the product is: component i is v[i] times the sum of row i (and the shorter of the two lengths).
    Full statement (false): component i is sum_j m[i][j] * v[j], i.e. [matrix_mul_elements rows v = mat_vec rows v]. *)
Theorem C48_value_partial : forall (F : Field), prime order -> forall rows v,
  Forall (fun x => 0 <= x < order) v -> matrix_mul_elements rows v = row_scale rows v.
Proof. intros F Hp rows v Hv. apply (matrix_mul_elements_spec Hp). exact Hv. Qed.
Print Assumptions C48_value_partial.
Theorem C48_expression_value_partial : forall (F : Field), prime order -> forall rows xs w, wf_witness w ->
  map (ev w) (matrix_mul rows xs) = row_scale rows (map (ev w) xs).
Proof. intros F Hp rows xs w Hw. apply (ev_matrix_mul Hp). Qed.
Print Assumptions C48_expression_value_partial.

(** For a square matrix the product is right on all vectors exactly if the matrix is diagonal. *)
Theorem C48_only_diagonal_refuted : forall (F : Field), prime order -> forall rows n, length rows = n -> Forall (fun row => length row = n) rows ->
  (forall v, length v = n -> Forall (fun x => 0 <= x < order) v -> matrix_mul_elements rows v = mat_vec rows v) ->
  forall i j, (i < n)%nat -> (j < n)%nat -> i <> j -> (nth j (nth i rows []) 0) mod order = 0.
Proof. intros F Hp rows n. apply (matrix_correct_diagonal Hp). Qed.
Print Assumptions C48_only_diagonal_refuted.

Example C48_example : let F : Field := F97 in
  matrix_mul_elements [[1; 2]; [3; 4]] [5; 6] = [15; 42] /\ mat_vec [[1; 2]; [3; 4]] [5; 6] = [17; 39].
Proof. vm_compute. auto. Qed.

(** Constructor: panics on an empty or ragged list of rows. *)
Theorem C48_new : forall rows, matrix_new rows = Ok rows <->
  exists n, (0 < n)%nat /\ rows <> [] /\ Forall (fun r : list Z => length r = n) rows.
Proof.
  intro rows. unfold matrix_new. destruct rows as [|r0 rows].
  - split; [discriminate|]. intros (n & _ & N & _). contradiction.
  - destruct (Nat.ltb_spec 0 (length r0)) as [L|L]; cbn [oassert obind].
    + destruct (forallb _ (r0 :: rows)) eqn:E; cbn [oassert obind].
      * split; [|auto]. intros _. exists (length r0). split; [exact L|]. split; [discriminate|]. rewrite forallb_forall in E.
        apply Forall_forall. intros x Hx. apply Nat.eqb_eq, E, Hx.
      * split; [discriminate|]. intros (n & Hn & _ & H). exfalso. assert (Hr : length r0 = n) by (inversion H; assumption).
        enough (T : forallb (fun r => length r =? length r0)%nat (r0 :: rows) = true) by congruence.
        rewrite forallb_forall. intros x Hx. rewrite Forall_forall in H. apply Nat.eqb_eq. rewrite (H x Hx). symmetry. exact Hr.
    + split; [discriminate|]. intros (n & Hn & _ & H). inversion H; lia.
Qed.
Print Assumptions C48_new.

(** ** C49 *)
Theorem C49_poseidon_value : forall (F : Field), prime order -> forall p xs, pos_sbox p <> Inverse ->
  sound_call (poseidon_permute p xs) (fun w r => map (ev w) r =
    poseidon_fun (sbox_fun (pos_sbox p)) (pos_full p) (pos_partial p) (pos_mds p) (map (ev w) xs)).
Proof. intros F Hp p xs Hs. apply (computesl_poseidon Hp p (length xs) Hs). reflexivity. Qed.
Print Assumptions C49_poseidon_value.

Theorem C49_poseidon_runs : forall (F : Field), prime order -> 2 < order -> forall p vals xs, poseidon_ok p ->
  good_inputs vals -> on_inputs_all vals xs -> length xs = pos_width p ->
  runs vals (poseidon_permute p xs) (fun r v => omap (e_evaluate v) r =
    Ok (poseidon_fun (sbox_fun (pos_sbox p)) (pos_full p) (pos_partial p) (pos_mds p) (map (wv vals) xs))).
Proof.
  intros F Hp H2 p vals xs Hok Hv Hx L. apply (to_runsl Hp); [exact Hv|]. apply (completesl_poseidon Hp p H2 Hok); [exact L|apply hasl_input, Hx].
Qed.
Print Assumptions C49_poseidon_runs.

Theorem C49_rescue_value : forall (F : Field), prime order -> forall r, 2 <= res_alpha r < order -> Z.gcd (order - 1) (res_alpha r) = 1 ->
  exists g : Z -> Z, (forall a, 0 <= a < order -> 0 <= g a < order /\ (g a ^ res_alpha r) mod order = a) /\
  (forall xs, sound_call (rescue_permute r xs) (fun w ys => map (ev w) ys =
     rescue_fun (fun a => (a ^ res_alpha r) mod order) g (res_rounds r) (res_mds r) (map (ev w) xs))) /\
  (forall vals xs, good_inputs vals -> on_inputs_all vals xs ->
     runs vals (rescue_permute r xs) (fun ys v => omap (e_evaluate v) ys =
       Ok (rescue_fun (fun a => (a ^ res_alpha r) mod order) g (res_rounds r) (res_mds r) (map (wv vals) xs)))).
Proof.
  intros F Hp r Ha Hg. destruct (rescue_sboxes Hp r Ha Hg) as (g & G & C1 & C2 & C3 & C4). exists g. split; [|split].
  - intros a Ia. destruct (G a Ia) as (A & _ & B). auto.
  - intro xs. apply to_call. intros w Hw. apply (snd_rescue Hp); [exact Hw| |]; intro x; [apply (computes1_snd (rescue_pi1 r) (fun a => (a ^ res_alpha r) mod order))|apply computes1_snd]; assumption.
  - intros vals xs Hv Hx. apply (to_runsl Hp); [exact Hv|]. apply (cmpl_rescue Hp); [exact C3|exact C4|apply hasl_input, Hx].
Qed.
Print Assumptions C49_rescue_value.

(** No diffusion at all: lane i of the output depends on lane i of the input only, for all parameters and
    every S-box (full statement, false: every output depends on every input lane). *)
Theorem C49_no_diffusion_refuted : forall (F : Field) (f g : Z -> Z) full part rounds mds l1 l2 i, nth_error l1 i = nth_error l2 i ->
  nth_error (poseidon_fun f full part mds l1) i = nth_error (poseidon_fun f full part mds l2) i /\
  nth_error (rescue_fun f g rounds mds l1) i = nth_error (rescue_fun f g rounds mds l2) i.
Proof. intros F f g full part rounds mds l1 l2 i E. split; [apply poseidon_lane, E|apply rescue_lane, E]. Qed.
Print Assumptions C49_no_diffusion_refuted.

(** Hence a sponge over Poseidon hashes each lane separately: outputs at positions congruent to i modulo the
    bitrate ignore all inputs at other positions.  In particular a single output ignores every input whose
    position is not a multiple of the bitrate. *)
Theorem C49_sponge_lanes_refuted : forall (F : Field) (f : Z -> Z) full part mds r c l1 l2 n q i,
  (i < r)%nat -> length mds = (r + c)%nat -> length l1 = length l2 ->
  (forall k, nth_error l1 (k * r + i) = nth_error l2 (k * r + i)) ->
  nth_error (sponge_fun (poseidon_fun f full part mds) r c l1 n) (q * r + i) =
  nth_error (sponge_fun (poseidon_fun f full part mds) r c l2 n) (q * r + i).
Proof.
  intros F f full part mds r c l1 l2 n q i Hi Lm L E. apply sponge_lane; auto.
  - intros l Ll. rewrite poseidon_fun_length; lia.
  - intros a b. apply poseidon_lane.
Qed.
Print Assumptions C49_sponge_lanes_refuted.

(** No round constants: the all-zero state is a fixed point for every S-box that keeps 0. *)
Theorem C49_zero_fixed_refuted : forall (F : Field), prime order -> forall (f g : Z -> Z) full part rounds mds l, f 0 = 0 -> g 0 = 0 -> Forall (eq 0) l ->
  Forall (eq 0) (poseidon_fun f full part mds l) /\ Forall (eq 0) (rescue_fun f g rounds mds l).
Proof. intros F Hp f g full part rounds mds l Hf Hg Hl. split; [apply (poseidon_zero Hp); assumption|apply (rescue_zero Hp); assumption]. Qed.
Print Assumptions C49_zero_fixed_refuted.

(** The inverses are never available. *)
Theorem C49_inverse_panics_refuted : forall (F : Field) p r xs b, poseidon_inverse p xs b = Panic /\ rescue_inverse r xs b = Panic.
Proof.
  intros F p r xs b. split; [|reflexivity]. unfold poseidon_inverse, bbind, blift, mds_inverse, oassert.
  destruct (length xs =? pos_width p)%nat; [|reflexivity]. cbn [obind]. destruct (pos_full p mod 2 =? 0)%nat; reflexivity.
Qed.
Print Assumptions C49_inverse_panics_refuted.

Example C49_example : let F : Field := F97 in
  let p := mkPoseidon 3 2 3 Exponentiation5 [[2; 1; 1]; [1; 2; 1]; [1; 1; 3]] in
  let r := mkRescue 3 5 2 [[2; 1; 1]; [1; 2; 1]; [1; 1; 3]] in
  demo [5; 6; 7] (poseidon_permute p [e_wire 1; e_wire 2; e_wire 3]) (fun r => r) = Ok (true, [84; 88; 73]) /\
  demo [5; 90; 7] (poseidon_permute p [e_wire 1; e_wire 2; e_wire 3]) (fun r => r) = Ok (true, [84; 60; 73]) /\
  demo [5; 6; 7] (rescue_permute r [e_wire 1; e_wire 2; e_wire 3]) (fun r => r) = Ok (true, [92; 91; 37]).
Proof. vm_compute. auto. Qed.

(** ** C50 *)
Theorem C50_element_in_field : forall (F : Field), 2 <= order -> forall fuel s e s', 0 <= s < 2 ^ 32 ->
  lcg_element fuel s = Ok (e, s') -> 0 <= e < order /\ 0 <= s' < 2 ^ 32.
Proof.
  intros F H2 fuel s e s' Hs E. unfold lcg_element in E. destruct (lcg_biguint fuel order s) as [[n s1]| |] eqn:En; try discriminate. cbn [obind] in E.
  destruct (lcg_biguint_ok _ _ _ _ _ Hs En) as [A B]. unfold el_from in E. destruct (Z.ltb_spec n order); [|discriminate]. cbn [obind] in E.
  injection E as <- <-. auto.
Qed.
Print Assumptions C50_element_in_field.

Theorem C50_below_limit : forall fuel limit s n s', 0 <= s < 2 ^ 32 ->
  lcg_biguint fuel limit s = Ok (n, s') -> 0 <= n < limit /\ 0 <= s' < 2 ^ 32.
Proof. exact lcg_biguint_ok. Qed.
Print Assumptions C50_below_limit.

(** The result does not depend on how many iterations are allowed: the loop is deterministic. *)
Theorem C50_deterministic : forall f1 f2 limit s r1 r2, lcg_biguint f1 limit s = Ok r1 -> lcg_biguint f2 limit s = Ok r2 -> r1 = r2.
Proof. exact lcg_biguint_unique. Qed.
Print Assumptions C50_deterministic.

(** It never panics for a positive limit ... *)
Theorem C50_no_panic : forall fuel limit s, 1 <= limit -> lcg_biguint fuel limit s <> Panic.
Proof.
  intros fuel limit s L. unfold lcg_biguint. destruct (Z.leb_spec 1 limit); [|lia]. cbn [oassert obind]. apply lcg_loop_nopanic.
Qed.
Print Assumptions C50_no_panic.

(** ... but it may run forever: after one call of next_u32 on a new generator, next_biguint(2^97 + 1) never
    returns, because the two low bits of the state repeat with period four. *)
Theorem C50_diverges_refuted : forall fuel, lcg_biguint fuel (2 ^ 97 + 1) (lcg_next lcg_new) = NoFuel.
Proof. exact lcg_diverges. Qed.
Print Assumptions C50_diverges_refuted.

Example C50_example : let F : Field := F97 in lcg_element 5 lcg_new = Ok (95, 1013904223) /\
  lcg_biguint 5 1000000000000 lcg_new = Ok (215762269023, 1196435762).
Proof. vm_compute. auto. Qed.

(** ** C55 *)
Theorem C55_compress : forall (F : Field), prime order -> forall m f, computes2 m f -> completes2 m f -> forall a b,
  0 <= a < order -> 0 <= b < order -> exists z, compress_evaluate m a b = Ok z /\
  forall x y, sound_call (m x y) (fun w r => ev w x = a -> ev w y = b -> ev w r = z).
Proof.
  intros F Hp m f S C a b Ia Ib. exists (f a b). split; [apply (evaluate2 Hp); assumption|].
  intros x y bd r b' w E Hw Hs <- <-. exact (proj2 S x y bd r b' w E Hw Hs).
Qed.
Print Assumptions C55_compress.

Theorem C55_permute : forall (F : Field), prime order -> forall m f, computes1 m f -> completes1 m f -> forall a,
  0 <= a < order -> exists z, run_const (m (e_const a)) e_evaluate = Ok z /\
  forall x, sound_call (m x) (fun w r => ev w x = a -> ev w r = z).
Proof.
  intros F Hp m f S C a Ia. exists (f a). split; [apply (evaluate1 Hp); assumption|].
  intros x bd r b' w E Hw Hs <-. exact (proj2 S x bd r b' w E Hw Hs).
Qed.
Print Assumptions C55_permute.

(** For the gadgets of the library. *)
Theorem C55_mimc : forall (F : Field), prime order -> forall cs c, good_inputs cs -> mimc_new cs = Ok c -> forall a b,
  0 <= a < order -> 0 <= b < order ->
  (exists z, encrypt_evaluate c a b = Ok z /\ forall x y, sound_call (encrypt c x y) (fun w r => ev w x = a -> ev w y = b -> ev w r = z)) /\
  (exists z, decrypt_evaluate c a b = Ok z /\ forall x y, sound_call (decrypt c x y) (fun w r => ev w x = a -> ev w y = b -> ev w r = z)) /\
  (exists z, compress_evaluate (davies_meyer c) a b = Ok z /\ forall x y, sound_call (davies_meyer c x y) (fun w r => ev w x = a -> ev w y = b -> ev w r = z)) /\
  (exists z, compress_evaluate (miyaguchi_preneel c) a b = Ok z /\ forall x y, sound_call (miyaguchi_preneel c x y) (fun w r => ev w x = a -> ev w y = b -> ev w r = z)).
Proof.
  intros F Hp cs c Hc E a b Ia Ib. destruct (mimc_facts Hp cs c Hc E) as (g & A1 & A2 & B1 & B2 & _). split; [|split; [|split]].
  - exact (C55_compress F Hp _ _ A1 A2 a b Ia Ib).
  - exact (C55_compress F Hp _ _ B1 B2 a b Ia Ib).
  - exact (C55_compress F Hp _ _ (computes2_davies_meyer Hp c _ A1) (completes2_davies_meyer Hp c _ A2) a b Ia Ib).
  - exact (C55_compress F Hp _ _ (computes2_miyaguchi_preneel Hp c _ A1) (completes2_miyaguchi_preneel Hp c _ A2) a b Ia Ib).
Qed.
Print Assumptions C55_mimc.

Theorem C55_monomial : forall (F : Field), prime order -> forall n, 2 <= n < order -> Z.gcd n (order - 1) = 1 -> forall a, 0 <= a < order ->
  (exists z, permute_evaluate (monomial n) a = Ok z /\ forall x, sound_call (permute (monomial n) x) (fun w r => ev w x = a -> ev w r = z)) /\
  (exists z, inverse_evaluate (monomial n) a = Ok z /\ forall x, sound_call (p_inverse (monomial n) x) (fun w r => ev w x = a -> ev w r = z)).
Proof.
  intros F Hp n Hn Hg a Ia. rewrite Z.gcd_comm in Hg. destruct (monomial_is_permutation Hp n Hn Hg) as (g & P1 & P2 & P3 & P4 & P5). split.
  - exact (C55_permute F Hp _ _ P1 P3 a Ia).
  - exact (C55_permute F Hp _ _ P2 P4 a Ia).
Qed.
Print Assumptions C55_monomial.

Theorem C55_merkle_damgard : forall (F : Field), prime order -> forall iv m H, 0 <= iv < order -> computes2 m H -> completes2 m H ->
  forall l, Forall (fun x => 0 <= x < order) l -> Z.of_nat (length l) < order ->
  exists z, hash_evaluate (merkle_damgard iv m) l = Ok z /\
  forall blocks, sound_call (merkle_damgard iv m blocks) (fun w r => map (ev w) blocks = l -> ev w r = z).
Proof.
  intros F Hp iv m H Iv S C l Il L. exists (md_fun H iv l). split.
  - apply run_const_runs. apply (to_runs1 Hp); [constructor|].
    assert (Hl : hasl (s0 []) (map e_const l) l) by (clear L; induction Il; cbn [map]; constructor; [apply (has_const0 Hp); assumption|assumption]).
    apply (cmpl_merkle_damgard Hp); auto. rewrite map_length. exact L.
  - intros blocks b r b' w E Hw Hs <-. exact (proj2 (snd_merkle_damgard Hp w Hw iv m H blocks Iv S b r b' E Hs)).
Qed.
Print Assumptions C55_merkle_damgard.

Theorem C55_poseidon : forall (F : Field), prime order -> 2 < order -> forall p, poseidon_ok p -> pos_sbox p <> Inverse ->
  forall l, length l = pos_width p -> Forall (fun x => 0 <= x < order) l ->
  exists z, mp_permute_evaluate (poseidon_mp p) l = Ok z /\
  forall xs, sound_call (mp_permute (poseidon_mp p) xs) (fun w r => map (ev w) xs = l -> map (ev w) r = z).
Proof.
  intros F Hp H2 p Hok Hs l L Il. eexists. split; [apply (evaluatel Hp _ (pos_width p)); [apply (completesl_poseidon Hp); assumption|exact L|exact Il]|].
  intros xs b r b' w E Hw Hsat <-. exact (C49_poseidon_value F Hp p xs Hs b r b' w E Hw Hsat).
Qed.
Print Assumptions C55_poseidon.

Theorem C55_rescue : forall (F : Field), prime order -> forall r, 2 <= res_alpha r < order -> Z.gcd (order - 1) (res_alpha r) = 1 ->
  forall l, Forall (fun x => 0 <= x < order) l ->
  exists z, mp_permute_evaluate (rescue_mp r) l = Ok z /\
  forall xs, sound_call (mp_permute (rescue_mp r) xs) (fun w ys => map (ev w) xs = l -> map (ev w) ys = z).
Proof.
  intros F Hp r Ha Hg l Il. destruct (rescue_sboxes Hp r Ha Hg) as (g & G & C1 & C2 & C3 & C4).
  exists (rescue_fun (fun a => (a ^ res_alpha r) mod order) g (res_rounds r) (res_mds r) l). split.
  - apply (evaluatel Hp (rescue_permute r) (length l)); [|reflexivity|exact Il]. intros D P s xs l' _ Hl. apply (cmpl_rescue Hp); assumption.
  - intros xs b ys b' w E Hw Hs <-. refine (snd_rescue Hp r w _ g xs Hw _ _ b ys b' E Hs); intro x;
      [apply (computes1_snd (rescue_pi1 r) (fun a => (a ^ res_alpha r) mod order))|apply computes1_snd]; assumption.
Qed.
Print Assumptions C55_rescue.

(** InversePermutation: agreement away from 0; full statement (false): for every input. *)
Theorem C55_inverse_permutation_partial : forall (F : Field), prime order -> 2 < order -> forall a, 0 <= a < order ->
  exists z, permute_evaluate inverse_permutation a = Ok z /\ (a = 0 -> z = 0) /\
  forall x, sound_call (permute inverse_permutation x) (fun w r => ev w x = a -> a <> 0 -> ev w r = z).
Proof.
  intros F Hp H2 a Ia. exists (finvv a). split; [|split].
  - apply (evaluate1 Hp (permute inverse_permutation) finvv); [|exact Ia]. intros D P s x c Hx. apply (cmpl_inverse_or_zero Hp H2). exact Hx.
  - intros ->. reflexivity.
  - intros x b r b' w E Hw Hs Ex Hn. pose proof (snd_inverse_or_zero_nz Hp w Hw x b r b' E Hs) as H. rewrite Ex in H. specialize (H Hn).
    destruct (finv_unique Hp a (ev w r) Ia (ev_field Hp _ _) H) as [_ R]. exact R.
Qed.
Print Assumptions C55_inverse_permutation_partial.

(** At 0 the gadget accepts any result whatsoever, while permute_evaluate returns 0. *)
Theorem C55_inverse_permutation_refuted : forall (F : Field), prime order -> 2 < order ->
  permute_evaluate inverse_permutation 0 = Ok 0 /\
  forall x c, 0 <= c < order -> sat_call (permute inverse_permutation x) (fun n w => below n x /\ ev w x = 0) (fun w r => ev w r = c).
Proof.
  intros F Hp H2. split.
  - destruct (C55_inverse_permutation_partial F Hp H2 0 ltac:(lia)) as (z & E & Hz & _). rewrite E, Hz by reflexivity. reflexivity.
  - intros x c Ic. apply to_sat_call. intros s G [Bx Ex].
    eapply csat_weaken; [apply (fs_inverse_or_zero Hp H2 s x c); [rewrite <- Ex; apply (has_below (nx s) (wt s) s); auto|exact Ic]|].
    cbv beta. intros e s1 _ _ [_ He]. exact He.
Qed.
Print Assumptions C55_inverse_permutation_refuted.

Example C55_example : let F : Field := F11 in
  match mimc_new [4; 9; 2] with
  | Ok c => encrypt_evaluate c 5 7 = Ok (mimc_fun 3 [4; 9; 2] 5 7) /\ decrypt_evaluate c 5 (mimc_fun 3 [4; 9; 2] 5 7) = Ok 7
  | _ => False
  end.
Proof. vm_compute. auto. Qed.

(** ** C58 *)
Theorem C58_concat : forall A (l : list (list A)), util_concat l = concat l.
Proof. intros A l. apply util_concat_ok. Qed.
Print Assumptions C58_concat.

(** [String.concat] of the standard library puts the separator between consecutive items.
    Full statement (false): [util_join sep l = String.concat sep l] for all lists. *)
Theorem C58_join_partial : forall sep l, (forall s l', l = s :: l' -> s <> String.EmptyString) -> util_join sep l = String.concat sep l.
Proof.
  intros sep l H. rewrite Str.join_ok. destruct l as [|s l]; [reflexivity|]. destruct s; [exfalso; eapply H; reflexivity|reflexivity].
Qed.
Print Assumptions C58_join_partial.

(** What it does in general: leading empty items are dropped together with their separators. *)
Theorem C58_join_exact : forall sep l, util_join sep l = String.concat sep (Str.drop_empty l).
Proof. exact Str.join_ok. Qed.
Print Assumptions C58_join_exact.

Import String.
Open Scope string_scope.
Theorem C58_join_refuted : exists sep l, util_join sep l <> String.concat sep l.
Proof. exists ",", [""; "a"]. vm_compute. discriminate. Qed.
Print Assumptions C58_join_refuted.

Example C58_example : util_join ", " ["a"; ""; "bc"] = "a, , bc" /\ util_concat [[1; 2]; []; [3]]%Z = [1; 2; 3]%Z.
Proof. vm_compute. auto. Qed.
