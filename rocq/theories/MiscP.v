(** Proofs about lcg.rs, util.rs and the [*_evaluate] methods of gadget_traits.rs. *)
From Coq Require String.
From Coq Require Import ZArith List Bool Arith Lia Znumtheory Permutation.
From Verif Require Import Base FieldM FieldP ExprM BuilderM GadgetsM CryptoM Spec SpecCrypto ExprP BitsP MonoP LocalP
  SoundP CmpP GadgetSoundP HonestP ExecP CoreP CompleteP CmpCompleteP GadgetCompleteP PropLib CryptoP SpongeP MatrixP.
Import ListNotations.
Open Scope Z_scope.

(** ** LCG *)
Definition u32 (s : Z) : Prop := 0 <= s < 2 ^ 32.

Lemma lcg_next_u32 s : u32 (lcg_next s).
Proof. unfold u32, lcg_next. apply Z.mod_pos_bound. lia. Qed.

Lemma lcg_chunks_ok n : forall s, u32 s -> Forall u32 (fst (lcg_chunks n s)) /\ length (fst (lcg_chunks n s)) = n /\ u32 (snd (lcg_chunks n s)).
Proof.
  induction n as [|n IH]; intros s Hs; cbn [lcg_chunks].
  - cbn. auto.
  - cbv zeta. destruct (IH (lcg_next s) (lcg_next_u32 s)) as (A & B & C).
    destruct (lcg_chunks n (lcg_next s)) as [cs s2]. cbn [fst snd length] in *.
    split; [constructor; [apply lcg_next_u32|exact A]|]. split; [lia|exact C].
Qed.

Lemma from_digits_bound ds : Forall u32 ds -> 0 <= from_digits ds < 2 ^ (32 * Z.of_nat (length ds)).
Proof.
  induction 1 as [|d ds Hd _ IH]; cbn [from_digits length]; [cbn; lia|].
  replace (32 * Z.of_nat (S (length ds))) with (32 + 32 * Z.of_nat (length ds)) by lia. rewrite Z.pow_add_r by lia.
  unfold u32 in Hd. nia.
Qed.

Lemma from_digits_app ds e : from_digits (ds ++ [e]) = from_digits ds + 2 ^ (32 * Z.of_nat (length ds)) * e.
Proof.
  induction ds as [|d ds IH]; cbn [app from_digits length]; [change (32 * Z.of_nat 0) with 0; change (2 ^ 0) with 1; ring|]. rewrite IH.
  replace (32 * Z.of_nat (S (length ds))) with (32 + 32 * Z.of_nat (length ds)) by lia. rewrite Z.pow_add_r by lia. ring.
Qed.

Lemma lcg_bits_ok bits s : u32 s -> 0 <= fst (lcg_bits bits s) < 2 ^ Z.of_nat bits /\ u32 (snd (lcg_bits bits s)).
Proof.
  intro Hs. unfold lcg_bits. destruct (lcg_chunks_ok (bits / 32) s Hs) as (A & B & C).
  destruct (lcg_chunks (bits / 32) s) as [cs s1]. cbn [fst snd] in *.
  pose proof (from_digits_bound cs A) as Bd. rewrite B in Bd. pose proof (Nat.div_mod bits 32 ltac:(lia)) as E.
  set (q := (bits / 32)%nat) in *. set (r := (bits mod 32)%nat) in *.
  assert (Eb : Z.of_nat bits = 32 * Z.of_nat q + Z.of_nat r) by lia.
  destruct (Nat.ltb_spec 0 r) as [L|L]; cbn [fst snd].
  - split; [|apply lcg_next_u32]. rewrite from_digits_app, B, Eb, Z.pow_add_r by lia.
    pose proof (Z.mod_pos_bound (lcg_next s1) (2 ^ Z.of_nat r) ltac:(lia)). nia.
  - split; [|exact C]. replace (Z.of_nat bits) with (32 * Z.of_nat q) by lia. exact Bd.
Qed.

Lemma lcg_loop_ok bits limit : forall fuel s n s', u32 s -> lcg_loop fuel bits limit s = Ok (n, s') -> 0 <= n < limit /\ u32 s'.
Proof.
  induction fuel as [|f IH]; intros s n s' Hs E; cbn [lcg_loop] in E; [discriminate|].
  destruct (lcg_bits_ok bits s Hs) as [A B]. destruct (lcg_bits bits s) as [m s1]. cbn [fst snd] in *.
  destruct (Z.ltb_spec m limit); [injection E as <- <-; split; [lia|exact B]|eapply IH; eauto].
Qed.

Lemma lcg_biguint_ok fuel limit s n s' : u32 s -> lcg_biguint fuel limit s = Ok (n, s') -> 0 <= n < limit /\ u32 s'.
Proof.
  intros Hs E. unfold lcg_biguint in E. destruct (1 <=? limit); cbn in E; [|discriminate]. eapply lcg_loop_ok; eauto.
Qed.

Lemma lcg_loop_nopanic bits limit : forall fuel s, lcg_loop fuel bits limit s <> Panic.
Proof. induction fuel as [|f IH]; intro s; cbn [lcg_loop]; [discriminate|]. destruct (lcg_bits bits s) as [m s1]. destruct (m <? limit); [discriminate|apply IH]. Qed.

Lemma lcg_loop_more bits limit : forall f1 f2 s r, lcg_loop f1 bits limit s = Ok r -> (f1 <= f2)%nat -> lcg_loop f2 bits limit s = Ok r.
Proof.
  induction f1 as [|f1 IH]; intros f2 s r E L; cbn [lcg_loop] in E; [discriminate|]. destruct f2 as [|f2]; [lia|]. cbn [lcg_loop].
  destruct (lcg_bits bits s) as [m s1]. destruct (m <? limit); [exact E|]. apply IH; [exact E|lia].
Qed.

Lemma lcg_biguint_more f1 f2 limit s r : lcg_biguint f1 limit s = Ok r -> (f1 <= f2)%nat -> lcg_biguint f2 limit s = Ok r.
Proof.
  unfold lcg_biguint. destruct (1 <=? limit); cbn; [|discriminate]. apply lcg_loop_more.
Qed.

Lemma lcg_biguint_unique f1 f2 limit s r1 r2 : lcg_biguint f1 limit s = Ok r1 -> lcg_biguint f2 limit s = Ok r2 -> r1 = r2.
Proof.
  intros E1 E2. apply (lcg_biguint_more _ (Nat.max f1 f2)) in E1; [|lia]. apply (lcg_biguint_more _ (Nat.max f1 f2)) in E2; [|lia]. congruence.
Qed.

(** The two low bits have period four. *)
Lemma lcg_next_mod4 s : lcg_next s mod 4 = (s + 3) mod 4.
Proof.
  unfold lcg_next.
  assert (D : forall x, (x mod 2 ^ 32) mod 4 = x mod 4).
  { intro x. pose proof (Z.div_mod x (2 ^ 32) ltac:(lia)) as E. rewrite E at 2. change (2 ^ 32) with (4 * 1073741824).
    replace (4 * 1073741824 * (x / (4 * 1073741824)) + x mod (4 * 1073741824)) with
      (x mod (4 * 1073741824) + (1073741824 * (x / (4 * 1073741824))) * 4) by ring. rewrite Z.mod_add by lia. reflexivity. }
  rewrite D. rewrite <- Z.add_mod_idemp_l, D, Z.add_mod_idemp_l by lia.
  replace (s * 1664525 + 1013904223) with (s + 3 + (s * 416131 + 253476055) * 4) by ring. apply Z.mod_add. lia.
Qed.

Lemma lcg_diverges_mod4 fuel : forall s, u32 s -> s mod 4 = 3 -> lcg_loop fuel 98 (2 ^ 97 + 1) s = NoFuel.
Proof.
  induction fuel as [|f IH]; intros s Hs H3; [reflexivity|]. cbn [lcg_loop].
  set (s1 := lcg_next s). set (s2 := lcg_next s1). set (s3 := lcg_next s2). set (s4 := lcg_next s3).
  assert (E : lcg_bits 98 s = (from_digits [s1; s2; s3; s4 mod 4], s4)) by reflexivity. rewrite E.
  assert (M : s4 mod 4 = 3).
  { unfold s4, s3, s2, s1. rewrite lcg_next_mod4. rewrite <- Z.add_mod_idemp_l, lcg_next_mod4, Z.add_mod_idemp_l by lia.
    replace (lcg_next (lcg_next s) + 3 + 3) with (lcg_next (lcg_next s) + 6) by ring.
    rewrite <- Z.add_mod_idemp_l, lcg_next_mod4, Z.add_mod_idemp_l by lia. replace (lcg_next s + 3 + 6) with (lcg_next s + 9) by ring.
    rewrite <- Z.add_mod_idemp_l, lcg_next_mod4, Z.add_mod_idemp_l by lia. replace (s + 3 + 9) with (s + 3 * 4) by ring.
    rewrite Z.mod_add by lia. exact H3. }
  rewrite M. assert (U1 := lcg_next_u32 s). assert (U2 := lcg_next_u32 s1). assert (U3 := lcg_next_u32 s2). fold s1 in U1. fold s2 in U2. fold s3 in U3. unfold u32 in *.
  replace (from_digits [s1; s2; s3; 3] <? 2 ^ 97 + 1) with false.
  - apply IH; [apply lcg_next_u32|exact M].
  - symmetry. apply Z.ltb_ge. unfold from_digits. change (2 ^ 97) with (2 * 2 ^ 32 * 2 ^ 32 * 2 ^ 32). nia.
Qed.

Lemma lcg_diverges fuel : lcg_biguint fuel (2 ^ 97 + 1) (lcg_next lcg_new) = NoFuel.
Proof. unfold lcg_biguint. change (zbits (2 ^ 97 + 1 - 1)) with 98%nat. cbn [obind oassert]. apply lcg_diverges_mod4; [apply lcg_next_u32|reflexivity]. Qed.

(** ** util *)
Lemma util_concat_ok {A} (l : list (list A)) : util_concat l = concat l.
Proof.
  unfold util_concat. change (concat l) with ([] ++ concat l). generalize (@nil A) as acc. induction l as [|x l IH]; intro acc; cbn [fold_left concat].
  - rewrite app_nil_r. reflexivity.
  - rewrite IH, app_assoc. reflexivity.
Qed.

Module Str.
Import String.
Lemma append_assoc a b c : ((a ++ b) ++ c = a ++ (b ++ c))%string.
Proof. induction a as [|x a IH]; cbn; [reflexivity|]. rewrite IH. reflexivity. Qed.
Lemma append_length a b : String.length (a ++ b)%string = (String.length a + String.length b)%nat.
Proof. induction a as [|x a IH]; cbn; [reflexivity|]. rewrite IH. reflexivity. Qed.

Definition step (sep b s : string) : string := ((if (String.length b =? 0)%nat then b else b ++ sep) ++ s)%string.

Lemma fold_nonempty sep l : forall b, (0 < String.length b)%nat ->
  fold_left (step sep) l b = (b ++ match l with [] => "" | _ => sep ++ String.concat sep l end)%string.
Proof.
  induction l as [|s l IH]; intros b Hb; cbn [fold_left].
  - assert (E : forall a, (a ++ "" = a)%string) by (induction a as [|x a IHa]; cbn; [reflexivity|rewrite IHa; reflexivity]). symmetry. apply E.
  - unfold step at 2. destruct (Nat.eqb_spec (String.length b) 0) as [E|_]; [lia|].
    rewrite IH by (rewrite !append_length; lia). rewrite !append_assoc. f_equal. f_equal. destruct l as [|t l].
    + assert (E : forall a, (a ++ "" = a)%string) by (induction a as [|x a IHa]; cbn; [reflexivity|rewrite IHa; reflexivity]). apply E.
    + reflexivity.
Qed.

Fixpoint drop_empty (l : list string) : list string :=
  match l with
  | EmptyString :: l' => drop_empty l'
  | _ => l
  end.

Lemma join_ok sep l : util_join sep l = String.concat sep (drop_empty l).
Proof.
  unfold util_join. change (fold_left (step sep) l "" = String.concat sep (drop_empty l))%string.
  induction l as [|s l IH]; [reflexivity|]. destruct s as [|a s]; cbn [fold_left drop_empty].
  - exact IH.
  - change (step sep "" (String a s)) with (String a s). rewrite fold_nonempty by (cbn; lia). destruct l as [|t l].
    + cbn [String.concat]. assert (E : forall a, (a ++ "" = a)%string) by (induction a0 as [|x a0 IHa]; cbn; [reflexivity|rewrite IHa; reflexivity]). apply E.
    + reflexivity.
Qed.
End Str.

(** ** evaluate methods *)
Section Evaluate.
Context {F : Field} (Hp : prime order).
Let Hord : 2 <= order := prime_ge2 Hp.

Lemma run_const_runs {A R} (m : B A) (f : values -> A -> outcome R) x : runs [] m (fun r v => f v r = Ok x) -> run_const m f = Ok x.
Proof using.
  intro H. assert (I : input_values [] v_new).
  { split; [reflexivity|]. split; [intros i Hi; cbn in Hi; lia|]. intros k Hk. destruct k; [cbn in Hk; lia|reflexivity]. }
  destruct (H v_new I) as (ws & b0 & r & b' & v & E0 & E1 & E2 & _ & E3). cbn in E0. injection E0 as <- <-.
  unfold run_const. rewrite E1. cbn [obind]. rewrite E2. cbn [obind]. exact E3.
Qed.

Lemma has_const0 c : infield c -> has (s0 []) (e_const c) c.
Proof using Hp.
  intro I. apply (has_const Hp); [|exact I]. split; [apply (wf_input Hp); constructor|]. cbn. lia.
Qed.

Lemma evaluate1 m f a : completes1 m f -> infield a -> run_const (m (e_const a)) e_evaluate = Ok (f a).
Proof using Hp.
  intros H Ia. apply run_const_runs. apply (to_runs1 Hp); [constructor|]. apply H. apply has_const0, Ia.
Qed.
Lemma evaluate2 m f a b : completes2 m f -> infield a -> infield b -> run_const (m (e_const a) (e_const b)) e_evaluate = Ok (f a b).
Proof using Hp.
  intros H Ia Ib. apply run_const_runs. apply (to_runs1 Hp); [constructor|]. apply H; apply has_const0; assumption.
Qed.
Lemma evaluatel m n f l : completesl m n f -> length l = n -> Forall infield l ->
  run_const (m (map e_const l)) (fun v => omap (e_evaluate v)) = Ok (f l).
Proof using Hp.
  intros H L I. apply run_const_runs. apply (to_runsl Hp); [constructor|]. apply H; [rewrite map_length; exact L|].
  clear L. induction I; cbn [map]; constructor; [apply has_const0; assumption|assumption].
Qed.
Lemma evaluateh m f l : (forall D P s xs, hasl s xs l -> comp D P s (m xs) (done P (fun r s' => has s' r (f l)))) -> Forall infield l ->
  run_const (m (map e_const l)) e_evaluate = Ok (f l).
Proof using Hp.
  intros H I. apply run_const_runs. apply (to_runs1 Hp); [constructor|]. apply H.
  clear H. induction I; cbn [map]; constructor; [apply has_const0; assumption|assumption].
Qed.
End Evaluate.
