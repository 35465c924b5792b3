(** Soundness of the comparison gadgets. *)
From Coq Require Import ZArith List Bool Arith Lia Znumtheory.
From Verif Require Import Base FieldM FieldP ExprM BuilderM GadgetsM Spec ExprP BitsP MonoP SoundP.
Import ListNotations.
Open Scope Z_scope.

(** * Cost model: the chosen chunk width *)
Section Chunking.
Context {F : Field}.

Definition ceil_div (a b : nat) : nat := ((a + b - 1) / b)%nat.

Lemma ceil_div_spec a b : (0 < b)%nat ->
  (a <= ceil_div a b * b /\ (0 < a -> (ceil_div a b - 1) * b < a) /\ (a = 0 -> ceil_div a b = 0))%nat.
Proof.
  intro Hb. unfold ceil_div. pose proof (Nat.div_mod (a + b - 1) b ltac:(lia)) as E.
  pose proof (Nat.mod_upper_bound (a + b - 1) b ltac:(lia)) as U.
  set (q := ((a + b - 1) / b)%nat) in *. set (r := ((a + b - 1) mod b)%nat) in *.
  rewrite (Nat.mul_comm b q) in E. repeat split.
  - lia.
  - intro. rewrite Nat.mul_sub_distr_r. lia.
  - intros ->. unfold q. apply Nat.div_small. lia.
Qed.

(** the fold keeps a minimiser *)
Lemma argmin_fold (f : nat -> nat) l : forall best cost, cost = f best ->
  let r := fst (fold_left (fun best c => if (f c <? snd best)%nat then (c, f c) else best) l (best, cost)) in
  (r = best \/ In r l) /\ (f r <= f best)%nat /\ (forall c, In c l -> f r <= f c)%nat.
Proof.
  induction l as [|c l IH]; intros best cost E; simpl.
  - repeat split; auto. intros _ [].
  - subst cost. destruct (Nat.ltb_spec (f c) (f best)) as [L|L].
    + destruct (IH c (f c) eq_refl) as (H1 & H2 & H3). repeat split.
      * destruct H1 as [->|H1]; right; [left|right]; auto.
      * lia.
      * intros c' [->|Hc]; auto.
    + destruct (IH best (f best) eq_refl) as (H1 & H2 & H3). repeat split.
      * destruct H1 as [->|H1]; [left|right; right]; auto.
      * lia.
      * intros c' [->|Hc]; auto. lia.
Qed.

Lemma cmp_chunk_bits_spec len :
  let c := cmp_chunk_bits len in
  (1 <= c)%nat /\ (c = 1 \/ c < max_bits)%nat /\
  (forall c', (1 <= c' < max_bits)%nat -> (cmp_constraints len c <= cmp_constraints len c')%nat).
Proof.
  unfold cmp_chunk_bits.
  destruct (argmin_fold (cmp_constraints len) (seq 2 (max_bits - 2)) 1 _ eq_refl) as (H1 & H2 & H3).
  cbv zeta. rewrite in_seq in H1. repeat split.
  - lia.
  - lia.
  - intros c' Hc. destruct (Nat.eq_dec c' 1) as [->|]; [exact H2|].
    apply H3. apply in_seq. lia.
Qed.

(** With the chosen width there are at most as many chunks as there are bits per chunk, as soon as
    one more width would have been allowed. *)
Lemma cmp_chunk_count len : (S (cmp_chunk_bits len) < max_bits)%nat ->
  (ceil_div len (cmp_chunk_bits len) <= cmp_chunk_bits len)%nat.
Proof.
  intro H. destruct (cmp_chunk_bits_spec len) as (H1 & _ & H3).
  set (c := cmp_chunk_bits len) in *. specialize (H3 (S c) ltac:(lia)).
  unfold cmp_constraints in H3. cbv zeta in H3.
  change ((len + c - 1) / c)%nat with (ceil_div len c) in H3.
  change ((len + S c - 1) / S c)%nat with (ceil_div len (S c)) in H3.
  destruct (ceil_div_spec len c ltac:(lia)) as (A1 & A2 & A3).
  destruct (ceil_div_spec len (S c) ltac:(lia)) as (B1 & B2 & B3).
  destruct len as [|len]; [rewrite A3 by reflexivity; lia|].
  specialize (A2 ltac:(lia)). specialize (B2 ltac:(lia)).
  set (n := ceil_div (S len) c) in *. set (n' := ceil_div (S len) (S c)) in *.
  assert (n <= n')%nat by lia. destruct (le_lt_dec n c) as [|L]; auto. exfalso. nia.
Qed.

End Chunking.

(** * Lists of digits *)
Fixpoint digits_val (B : Z) (l : list Z) : Z :=
  match l with [] => 0 | d :: l' => d + B * digits_val B l' end.

Lemma digits_val_bound B l : 0 < B -> Forall (fun d => 0 <= d < B) l ->
  0 <= digits_val B l < B ^ Z.of_nat (length l).
Proof.
  intros HB. induction 1 as [|d l Hd _ IH]; [simpl; lia|].
  cbn [digits_val length]. rewrite Nat2Z.inj_succ, Z.pow_succ_r by lia. nia.
Qed.

Lemma digits_val_app B a b : digits_val B (a ++ b) = digits_val B a + B ^ Z.of_nat (length a) * digits_val B b.
Proof.
  induction a as [|d a IH]; cbn [app digits_val length].
  - change (B ^ Z.of_nat 0) with 1. lia.
  - rewrite IH, Nat2Z.inj_succ, Z.pow_succ_r by lia. ring.
Qed.

Lemma digits_lt B xs ys j : 0 < B ->
  length xs = length ys -> (j < length xs)%nat ->
  Forall (fun d => 0 <= d < B) xs -> Forall (fun d => 0 <= d < B) ys ->
  (forall i, (j < i < length xs)%nat -> nth i xs 0 = nth i ys 0) ->
  nth j xs 0 < nth j ys 0 -> digits_val B xs < digits_val B ys.
Proof.
  intro HB. revert ys j. induction xs as [|x xs IH]; intros ys j L Hj Fx Fy He Hlt; [simpl in Hj; lia|].
  destruct ys as [|y ys]; [discriminate|]. cbn [length] in *. cbn [digits_val].
  inversion Fx; inversion Fy; subst. destruct j as [|j].
  - assert (xs = ys) as ->.
    { apply nth_ext with (d := 0) (d' := 0); [lia|]. intros i Hi. apply (He (S i)). lia. }
    cbn [nth] in Hlt. lia.
  - assert (digits_val B xs < digits_val B ys).
    { apply IH with (j := j); auto; [lia|]. intros i Hi. apply (He (S i)). lia. }
    nia.
Qed.

Lemma chunks_fuel_digits {F : Field} w c : (0 < c)%nat -> forall fuel l, (length l <= fuel)%nat ->
  bin_val w l = digits_val (2 ^ Z.of_nat c) (map (bin_val w) (chunks_fuel fuel c l)).
Proof.
  intro Hc. induction fuel as [|fuel IH]; intros l L.
  - destruct l; [reflexivity|simpl in L; lia].
  - destruct l as [|a l']; [reflexivity|]. set (l := a :: l') in *.
    change (chunks_fuel (S fuel) c l) with (firstn c l :: chunks_fuel fuel c (skipn c l)).
    cbn [map digits_val]. rewrite <- IH.
    + rewrite <- (firstn_skipn c l) at 1. rewrite bin_val_app.
      destruct (le_lt_dec c (length l)).
      * rewrite firstn_length, Nat.min_l by lia. reflexivity.
      * rewrite skipn_all2 by lia. change (bin_val w []) with 0. rewrite !Z.mul_0_r. reflexivity.
    + rewrite skipn_length. lia.
Qed.

Lemma chunks_fuel_Forall {A} (P : A -> Prop) c : forall fuel l,
  Forall P l -> Forall (fun ch => Forall P ch /\ (length ch <= c)%nat) (chunks_fuel fuel c l).
Proof.
  induction fuel as [|fuel IH]; intros l H; [constructor|].
  destruct l as [|a l']; [constructor|]. set (l := a :: l') in *.
  change (chunks_fuel (S fuel) c l) with (firstn c l :: chunks_fuel fuel c (skipn c l)).
  rewrite <- (firstn_skipn c l) in H. apply Forall_app in H. destruct H as [H1 H2].
  constructor; [|apply IH; exact H2]. split; auto. apply firstn_le_length.
Qed.

Lemma chunks_fuel_length {A} c : (0 < c)%nat -> forall fuel (l : list A), (length l <= fuel)%nat ->
  length (chunks_fuel fuel c l) = ceil_div (length l) c.
Proof.
  intro Hc. induction fuel as [|fuel IH]; intros l L.
  - destruct l; [|simpl in L; lia]. symmetry. apply (ceil_div_spec 0 c Hc). reflexivity.
  - destruct l as [|a l']; [symmetry; apply (ceil_div_spec 0 c Hc); reflexivity|].
    set (l := a :: l') in *.
    change (chunks_fuel (S fuel) c l) with (firstn c l :: chunks_fuel fuel c (skipn c l)).
    cbn [length]. assert (1 <= length l)%nat by (unfold l; simpl; lia).
    rewrite IH by (rewrite skipn_length; lia). rewrite skipn_length. unfold ceil_div.
    destruct (le_lt_dec c (length l)).
    + replace (length l + c - 1)%nat with ((length l - c + c - 1) + 1 * c)%nat by lia.
      rewrite Nat.div_add by lia. lia.
    + replace (length l - c)%nat with 0%nat by lia.
      rewrite (Nat.div_small (0 + c - 1)) by lia.
      replace (length l + c - 1)%nat with ((length l - 1) + 1 * c)%nat by lia.
      rewrite Nat.div_add, Nat.div_small by lia. reflexivity.
Qed.

Lemma omap_Forall2 {A C} (f : A -> outcome C) l r :
  omap f l = Ok r -> Forall2 (fun a c => f a = Ok c) l r.
Proof.
  revert r. induction l as [|a l IH]; intros r E; simpl in E.
  - inversion E. constructor.
  - destruct (f a) eqn:Ea; try discriminate. simpl in E.
    destruct (omap f l) eqn:El; try discriminate. inversion E. subst. constructor; auto.
Qed.

(** * Sums over an initial segment *)
Fixpoint zsum (f : nat -> Z) (n : nat) : Z :=
  match n with O => 0 | S k => zsum f k + f k end.

Lemma zsum_nonneg f n : (forall j, (j < n)%nat -> 0 <= f j) -> 0 <= zsum f n.
Proof.
  induction n as [|n IH]; intro H; simpl; [lia|]. pose proof (H n ltac:(lia)).
  assert (0 <= zsum f n) by (apply IH; intros; apply H; lia). lia.
Qed.

Lemma zsum_le f n : (forall j, (j < n)%nat -> is_bit (f j)) -> zsum f n <= Z.of_nat n.
Proof.
  induction n as [|n IH]; intro H; [simpl; lia|]. cbn [zsum].
  assert (is_bit (f n)) as Hb by (apply H; lia).
  assert (zsum f n <= Z.of_nat n) by (apply IH; intros; apply H; lia).
  destruct Hb; lia.
Qed.

Lemma zsum_ext f g n : (forall j, (j < n)%nat -> f j = g j) -> zsum f n = zsum g n.
Proof.
  induction n as [|n IH]; intro H; simpl; auto. rewrite IH, H by (intros; try apply H; lia). reflexivity.
Qed.

Lemma zsum_zero f n : (forall j, (j < n)%nat -> f j = 0) -> zsum f n = 0.
Proof.
  induction n as [|n IH]; intro H; simpl; auto. rewrite IH, H by (intros; try apply H; lia). reflexivity.
Qed.

Lemma zsum_single f n j : (j < n)%nat -> (forall i, (i < n)%nat -> i <> j -> f i = 0) -> zsum f n = f j.
Proof.
  induction n as [|n IH]; intros Hj H; [lia|]. cbn [zsum].
  destruct (Nat.eq_dec j n) as [->|N].
  - rewrite zsum_zero; [lia|]. intros i Hi. apply H; lia.
  - rewrite IH; [|lia|intros; apply H; lia]. rewrite (H n) by lia. lia.
Qed.

(** a 0/1 vector of sum 0 or 1 is zero or a unit vector *)
Lemma unit_vector f n : (forall j, (j < n)%nat -> is_bit (f j)) -> is_bit (zsum f n) ->
  (forall j, (j < n)%nat -> f j = 0) \/
  (exists j, (j < n)%nat /\ f j = 1 /\ forall i, (i < n)%nat -> i <> j -> f i = 0).
Proof.
  induction n as [|n IH]; intros Hb Hs; [left; intros; lia|]. cbn [zsum] in Hs.
  assert (is_bit (f n)) as Hn by (apply Hb; lia).
  assert (0 <= zsum f n).
  { apply zsum_nonneg. intros j Hj. destruct (Hb j ltac:(lia)); lia. }
  assert (Hb' : forall j, (j < n)%nat -> is_bit (f j)) by (intros; apply Hb; lia).
  destruct Hn as [Hn|Hn].
  - rewrite Hn, Z.add_0_r in Hs. destruct (IH Hb' Hs) as [A|(j & Hj & H1 & H0)].
    + left. intros j Hj. destruct (Nat.eq_dec j n) as [->|]; auto. apply A; lia.
    + right. exists j. repeat split; auto. intros i Hi Hij.
      destruct (Nat.eq_dec i n) as [->|]; auto. apply H0; lia.
  - right. exists n. repeat split; auto. assert (E : zsum f n = 0) by (destruct Hs; lia).
    clear IH Hs Hb. intros i Hi Hin. assert (Hi' : (i < n)%nat) by lia. clear Hi Hin H Hn.
    revert i Hi'. induction n as [|n IH]; intros i Hi; [lia|]. cbn [zsum] in E.
    assert (Hn : is_bit (f n)) by (apply Hb'; lia).
    assert (0 <= zsum f n).
    { apply zsum_nonneg. intros j Hj. destruct (Hb' j ltac:(lia)); lia. }
    destruct (Nat.eq_dec i n) as [->|]; [destruct Hn; lia|].
    apply IH; [intros; apply Hb'; lia|destruct Hn; lia|lia].
Qed.

Section Cmp.
Context {F : Field} (Hp : prime order) (w : witness) (Hw : wf_witness w).

Let Hord : 2 <= order := prime_ge2 Hp.

Lemma wires_spec n b : b_wires n b = Ok (seq (next b) n, mkB (next b + n) (constraints b) (generators b)).
Proof.
  unfold b_wires.
  assert (G : forall l b, bmap (fun _ : nat => b_wire) l b
                     = Ok (seq (next b) (length l), mkB (next b + length l) (constraints b) (generators b))).
  { clear b. induction l as [|a l IH]; intro b; simpl.
    - unfold bret. rewrite Nat.add_0_r. destruct b; reflexivity.
    - unfold bbind at 1. unfold b_wire at 1. simpl. unfold bbind. rewrite IH. simpl.
      unfold bret. rewrite Nat.add_succ_r. reflexivity. }
  rewrite G, seq_length. reflexivity.
Qed.

Lemma snd_wires n : sound w (b_wires n) (fun ws => length ws = n /\ NoDup ws).
Proof.
  intros b ws b' E _. rewrite wires_spec in E. inversion E.
  split; [apply seq_length|apply seq_NoDup].
Qed.

(** values of the chunks *)
Lemma chunk_values bits c es : bin_ok w bits -> (0 < c)%nat ->
  (let! cs := bin_chunks bits c in omap bin_join cs) = Ok es ->
  length es = ceil_div (length bits) c /\
  Forall (fun d => 0 <= d < 2 ^ Z.of_nat c) (map (ev w) es) /\
  digits_val (2 ^ Z.of_nat c) (map (ev w) es) = bin_val w bits.
Proof using Hp.
  intros Hb Hc E. unfold bin_chunks, chunks in E.
  destruct (Nat.eqb_spec c 0); [lia|]. simpl in E.
  apply omap_Forall2 in E.
  rewrite <- (chunks_fuel_length c Hc (length bits) bits (le_n _)).
  rewrite (chunks_fuel_digits w c Hc (length bits) bits (le_n _)).
  pose proof (chunks_fuel_Forall _ c (length bits) bits Hb) as Fb.
  set (chs := chunks_fuel (length bits) c bits) in *. clearbody chs.
  induction E as [|ch e chs es Ee _ IH]; [repeat split; constructor|].
  inversion Fb as [|? ? [Hch Lch] Fb']; subst. destruct (IH Fb') as (L & Fd & V).
  apply (bin_join_inv Hord) in Ee. destruct Ee as (Hpow & _ & Hev & _).
  assert (B := bin_val_bound w ch Hch).
  assert (Ee : ev w e = bin_val w ch) by (rewrite Hev; apply Z.mod_small; lia).
  cbn [map length digits_val]. rewrite Ee. repeat split.
  - rewrite L. reflexivity.
  - constructor; auto. pose proof (pow2_le (length ch) c Lch). lia.
  - rewrite V. reflexivity.
Qed.

Lemma oindex_nth {A} (l : list A) i a d : oindex l i = Ok a -> (i < length l)%nat /\ nth i l d = a.
Proof.
  unfold oindex, ounwrap. destruct (nth_error l i) eqn:E; intro H; inversion H; subst.
  split; [apply nth_error_Some; congruence|apply nth_error_nth; exact E].
Qed.

Lemma nth_map_ev (l : list expr) i e : oindex l i = Ok e -> nth i (map (ev w) l) 0 = ev w e.
Proof using Hp.
  intro H. apply (oindex_nth l i e e_zero) in H. destruct H as [_ H].
  rewrite <- H, <- (map_nth (ev w)), (ev_zero Hord). reflexivity.
Qed.

Lemma zsum_shift f n : zsum f (S n) = f 0%nat + zsum (fun j => f (S j)) n.
Proof. induction n as [|n IH]; [simpl; lia|]. cbn [zsum] in *. lia. Qed.

Lemma zsum_list (l : list Z) : zsum (fun j => nth j l 0) (length l) = fold_right Z.add 0 l.
Proof.
  induction l as [|a l IH]; [reflexivity|]. cbn [length]. rewrite zsum_shift. cbn [nth fold_right].
  rewrite IH. reflexivity.
Qed.

(** the last step: splitting the shifted difference *)
Lemma snd_cmp_subtractive diff less strict c :
  sound w (cmp_subtractive diff less strict c)
    (fun r => (S c < max_bits)%nat /\
       let z := (2 ^ Z.of_nat c - b2z strict + (if less then - ev w diff else ev w diff)) mod order in
       0 <= z < 2 ^ Z.of_nat (S c) /\ ev w r = b2z (2 ^ Z.of_nat c <=? z)).
Proof using Hp Hw.
  unfold cmp_subtractive.
  eapply sound_bind with (Q := fun base => base = 2 ^ Z.of_nat c); [|intro; mono|cbv beta].
  { apply sound_lift. intros a E. unfold fshl in E. apply el_from_inv in E. unfold fone in E. lia. }
  intros base ->. sbind (apply (snd_split_bounded Hp w Hw)). intros zb (Hc & Hl & Hb & Hz).
  apply sound_lift. intros r Hr. split; [lia|].
  set (z := (2 ^ Z.of_nat c - b2z strict + (if less then - ev w diff else ev w diff)) mod order).
  assert (Ez : z = bin_val w zb).
  { rewrite <- Hz, (ev_add_mod Hp w), (ev_const Hord); [|apply Hw|apply infield_sub, Hord].
    unfold z. rewrite (fsub_mod Hp). change (fbool strict) with (b2z strict).
    destruct less.
    - rewrite (ev_neg Hord), Zplus_mod_idemp_l.
      rewrite (Zplus_mod _ (- ev w diff)), (Zplus_mod _ (fopp (ev w diff))).
      do 2 f_equal. symmetry. apply (fopp_eqm Hord).
    - rewrite Zplus_mod_idemp_l. reflexivity. }
  assert (Bd := bin_val_bound w zb Hb). rewrite Hl, Nat.add_1_r in Bd. cbv zeta.
  rewrite Ez. split; [exact Bd|].
  (* the top bit *)
  assert (Hs : zb = firstn c zb ++ [r]).
  { apply (oindex_nth zb c r e_zero) in Hr. destruct Hr as [Hr1 Hr2].
    rewrite <- (firstn_skipn c zb) at 1. f_equal.
    destruct (skipn c zb) as [|a l] eqn:Es.
    - apply (f_equal (@length _)) in Es. rewrite skipn_length in Es. simpl in Es. lia.
    - assert (Hl2 : length (skipn c zb) = 1%nat) by (rewrite skipn_length; lia).
      rewrite Es in Hl2. destruct l; [|discriminate]. f_equal.
      rewrite <- (firstn_skipn c zb), Es, app_nth2 in Hr2; rewrite firstn_length, Nat.min_l in * by lia; [|lia].
      rewrite Nat.sub_diag in Hr2. exact Hr2. }
  rewrite Hs in Hb. unfold bin_ok in Hb. apply Forall_app in Hb. destruct Hb as [Hb1 Hb2].
  inversion Hb2 as [|? ? Hbr _]; subst. rewrite Hs, bin_val_app, firstn_length, Nat.min_l by lia.
  assert (B1 := bin_val_bound w _ Hb1). rewrite firstn_length, Nat.min_l in B1 by lia.
  change (bin_val w [r]) with (ev w r + 2 * 0).
  destruct Hbr as [->| ->]; [destruct (Z.leb_spec (2 ^ Z.of_nat c) (bin_val w (firstn c zb) + 2 ^ Z.of_nat c * (0 + 2 * 0)))
                          |destruct (Z.leb_spec (2 ^ Z.of_nat c) (bin_val w (firstn c zb) + 2 ^ Z.of_nat c * (1 + 2 * 0)))];
    simpl b2z; lia.
Qed.

(** What a satisfying witness says about the result of [cmp_binary]: either the default (0 for the
    strict comparisons, 1 for the others), or the other value and then the operands are ordered
    accordingly. *)
Definition cmp_result (less strict : bool) (X Y r : Z) : Prop :=
  r = 1 - b2z strict \/ (r = b2z strict /\ if Bool.eqb less strict then X < Y else Y < X).

Lemma snd_cmp_binary x y less strict : bin_ok w x -> bin_ok w y ->
  sound w (cmp_binary x y less strict)
    (fun r => length x = length y /\ (0 < length x)%nat /\
              cmp_result less strict (bin_val w x) (bin_val w y) (ev w r)).
Proof using Hp Hw.
  intros Hx Hy. unfold cmp_binary.
  sbind0; [apply sound_lift with (Q := fun _ => length x = length y)|cbv beta].
  { intros [] E. unfold oassert in E. destruct (Nat.eqb_spec (length x) (length y)); [assumption|discriminate]. }
  intros _ Hlen. cbv zeta. destruct (cmp_chunk_bits_spec (length x)) as (Hc1 & _ & _).
  set (c := cmp_chunk_bits (length x)) in *.
  sbind (apply sound_lift; intros es; apply chunk_values; [exact Hx|lia]).
  intros xc (Lx & Fx & Vx).
  sbind (apply sound_lift; intros es; apply chunk_values; [exact Hy|lia]).
  intros yc (Ly & Fy & Vy). rewrite <- Hlen in Ly.
  sbind (apply snd_wires). intros mask [Lm Nm].
  set (n := length xc) in *.
  sbind (apply sound_bmap with (Q := fun m _ => is_bit (w m));
    [intro; mono|intros m _; eapply sound_weaken; [apply (snd_assert_boolean Hp w Hw)|
      cbv beta; intros r [_ H]; rewrite (ev_wire_ Hp w Hw) in H; exact H]]).
  intros _mb Hmb.
  assert (Hbits : Forall (fun m => is_bit (w m)) mask).
  { clear - Hmb. induction Hmb; constructor; auto. }
  clear _mb Hmb.
  sbind (apply (snd_assert_boolean Hp w Hw)). intros de [-> Hde].
  rewrite (ev_sum_of_wires w mask Nm) in Hde.
  sbind (apply sound_true). intros _ _.
  set (X := fun i => nth i (map (ev w) xc) 0). set (Y := fun i => nth i (map (ev w) yc) 0).
  set (M := fun i => nth i (map w mask) 0).
  assert (IX : forall i e, oindex xc i = Ok e -> ev w e = X i) by (intros; symmetry; apply nth_map_ev; auto).
  assert (IY : forall i e, oindex yc i = Ok e -> ev w e = Y i) by (intros; symmetry; apply nth_map_ev; auto).
  assert (IM : forall i m, oindex mask i = Ok m -> w m = M i).
  { intros i m H. unfold M. apply (oindex_nth mask i m 0%nat) in H. destruct H as [H1 H2].
    rewrite (nth_indep _ 0 (w 0%nat)) by (rewrite map_length; exact H1).
    rewrite map_nth, H2. reflexivity. }
  eapply sound_bind with (Q := fun d => ev w d = zsum (fun i => M i * (X i - Y i)) n mod order);
    [|intro; mono|cbv beta].
  { apply sound_bfold_seq with (k := 0%nat) (I := fun i s => ev w s = zsum (fun i => M i * (X i - Y i)) i mod order).
    - intros. mono.
    - simpl. rewrite (ev_zero Hord). symmetry. apply (mod_small_0 Hp).
    - intros i s _ Hs.
      sbind (apply sound_lift; intros a Ha; apply IX, Ha). intros xi Hxi.
      sbind (apply sound_lift; intros a Ha; apply IY, Ha). intros yi Hyi.
      sbind (apply sound_lift; intros a Ha; apply IM, Ha). intros m Hm.
      sbind (apply (snd_product Hp w Hw)). intros t Ht. apply sound_ret.
      rewrite (ev_add_mod Hp w), Hs, Ht, (ev_wire_ Hp w Hw), (ev_sub_mod Hp w), Hxi, Hyi, Hm.
      zmod. reflexivity. }
  intros dc Hdc.
  sbind (apply sound_lift; intros a Ha; exact (conj (IM 0%nat a Ha) (proj1 (oindex_nth mask 0 a 0%nat Ha)))).
  intros m0 [Hm0 Hn0]. rewrite Lm in Hn0.
  eapply sound_bind with (Q := fun _ => forall i, (1 <= i < n)%nat ->
      (zsum M i * (X i - Y i)) mod order = 0); [|intro; mono|cbv beta].
  { eapply sound_weaken.
    - apply sound_bfold_seq with (I := fun i s => ev w s = zsum M i mod order /\
        forall j, (1 <= j < i)%nat -> (zsum M j * (X j - Y j)) mod order = 0).
      + intros. mono.
      + cbn [zsum]. rewrite (ev_wire_ Hp w Hw), Hm0, Z.add_0_l. split; [|intros; lia].
        symmetry. apply Z.mod_small. rewrite <- Hm0. apply Hw.
      + intros i s Hi [Hs Hall].
        sbind (apply sound_lift; intros a Ha; apply IX, Ha). intros xi Hxi.
        sbind (apply sound_lift; intros a Ha; apply IY, Ha). intros yi Hyi.
        sbind (apply sound_assert_product). intros _ Hpr.
        sbind (apply sound_lift; intros a Ha; apply IM, Ha). intros m Hm. apply sound_ret.
        split.
        * rewrite (ev_add_mod Hp w), Hs, (ev_wire_ Hp w Hw), Hm. zmod. reflexivity.
        * intros j Hj. destruct (Nat.eq_dec j i) as [->|]; [|apply Hall; lia].
          rewrite (ev_zero Hord), (ev_sub_mod Hp w), Hs, Hxi, Hyi, Zmult_mod_idemp_l, Zmult_mod_idemp_r in Hpr.
          exact Hpr.
    - cbv beta. intros s [_ H] i Hi. apply H. lia. }
  intros _ Heq.
  eapply sound_bind with (Q := fun _ => strict = true \/
      (ev w (e_sum_of_wires mask) = 1 -> ev w dc <> 0)); [|intro; mono|cbv beta].
  { destruct strict; [apply sound_ret; left; reflexivity|].
    sbind (apply (snd_selection Hp w Hw); rewrite (ev_sum_of_wires w mask Nm); exact Hde).
    intros nz Hnz. eapply sound_weaken; [apply (snd_assert_nonzero Hp w Hw)|]. cbv beta.
    intros _ Hne. right. intro E1. rewrite E1 in Hnz. simpl in Hnz. congruence. }
  intros _ Hnz.
  eapply sound_weaken; [apply snd_cmp_subtractive|]. cbv beta zeta.
  intros r (Hcm & Hz & Hr). split; [exact Hlen|]. split.
  { destruct (length x) eqn:E0; [|lia]. exfalso. fold n in Lx.
    rewrite (proj2 (proj2 (ceil_div_spec 0 c ltac:(lia))) eq_refl) in Lx. lia. }
  (* pure reasoning from here *)
  pose proof (cmp_chunk_count (length x) Hcm) as Hcount. fold c in Hcount. rewrite <- Lx in Hcount.
  assert (Hn : Z.of_nat n < order).
  { pose proof (pow2_lt_order Hord (S c) Hcm). pose proof (pow2_gt (S c)). fold n in Hcount. lia. }
  assert (HM : forall j, (j < n)%nat -> is_bit (M j)).
  { intros j Hj. unfold M. rewrite Forall_forall in Hbits.
    rewrite (nth_indep _ 0 (w 0%nat)) by (rewrite map_length; lia). rewrite map_nth. apply Hbits, nth_In. lia. }
  assert (Hsum : fold_right (fun k s => w k + s) 0 mask = zsum M n).
  { unfold M. rewrite <- Lm, <- (map_length w mask), zsum_list. clear.
    induction mask; simpl; congruence. }
  assert (HS : is_bit (zsum M n)).
  { rewrite Hsum in Hde. rewrite Z.mod_small in Hde; auto.
    split; [apply zsum_nonneg; intros j Hj; destruct (HM j Hj); lia|].
    pose proof (zsum_le M n HM). lia. }
  assert (HSm : ev w (e_sum_of_wires mask) = zsum M n).
  { rewrite (ev_sum_of_wires w mask Nm), Hsum. apply Z.mod_small.
    destruct HS as [E|E]; rewrite E; pose proof Hord; lia. }
  rewrite HSm in Hnz. set (B := 2 ^ Z.of_nat c) in *.
  assert (HB : 2 * B < order).
  { unfold B. rewrite <- pow2_S. apply (pow2_lt_order Hord), Hcm. }
  rewrite pow2_S in Hz. fold B in Hz. pose proof (pow2_pos c) as HB0. fold B in HB0.
  assert (Hs01 : 0 <= b2z strict <= 1) by (destruct strict; simpl; lia).
  destruct (unit_vector M n HM HS) as [Hall|(j & Hj & Hj1 & Hj0)].
  - (* empty mask *)
    assert (Hd0 : ev w dc = 0).
    { rewrite Hdc, zsum_zero; [apply (mod_small_0 Hp)|]. intros i Hi. rewrite Hall by exact Hi. lia. }
    rewrite Hd0 in Hr.
    assert (Er : ev w r = 1 - b2z strict).
    { rewrite Hr. replace (if less then - 0 else 0) with 0 by (destruct less; reflexivity).
      rewrite Z.add_0_r, Z.mod_small by lia. destruct strict; simpl b2z.
      - destruct (Z.leb_spec B (B - 1)); simpl; lia.
      - destruct (Z.leb_spec B (B - 0)); simpl; lia. }
    left. exact Er.
  - (* chunk j was selected *)
    assert (HXB : 0 <= X j < B).
    { unfold X. rewrite Forall_forall in Fx. apply Fx, nth_In. rewrite map_length. exact Hj. }
    assert (HYB : 0 <= Y j < B).
    { unfold Y. rewrite Forall_forall in Fy. apply Fy, nth_In. rewrite map_length. fold n in Lx. lia. }
    assert (Hd : ev w dc = (X j - Y j) mod order).
    { rewrite Hdc, (zsum_single _ n j Hj); [rewrite Hj1; f_equal; lia|].
      intros i Hi Hne. rewrite Hj0 by assumption. lia. }
    assert (HM1 : zsum M n = 1) by (rewrite (zsum_single _ n j Hj); auto).
    assert (Hup : forall i, (j < i < n)%nat -> X i = Y i).
    { intros i Hi. specialize (Heq i ltac:(lia)).
      rewrite (zsum_single M i j) in Heq; [|lia|intros; apply Hj0; lia]. rewrite Hj1, Z.mul_1_l in Heq.
      assert (0 <= X i < B). { unfold X. rewrite Forall_forall in Fx. apply Fx, nth_In. rewrite map_length. apply Hi. }
      assert (0 <= Y i < B). { unfold Y. rewrite Forall_forall in Fy. apply Fy, nth_In. rewrite map_length. fold n in Lx. lia. }
      apply (mod_sub_zero Hp); auto; unfold infield; lia. }
    assert (LXY : X j < Y j -> bin_val w x < bin_val w y).
    { rewrite <- Vx, <- Vy. apply digits_lt; auto; rewrite ?map_length; fold n; try lia.
      intros i Hi. apply Hup. exact Hi. }
    assert (LYX : Y j < X j -> bin_val w y < bin_val w x).
    { rewrite <- Vx, <- Vy. apply digits_lt; auto; rewrite ?map_length; try lia.
      intros i Hi. symmetry. apply Hup. fold n in Lx. lia. }
    assert (Ez : (B - b2z strict + (if less then - ev w dc else ev w dc)) mod order
                 = B - b2z strict + (if less then Y j - X j else X j - Y j)).
    { rewrite Hd. destruct less.
      - replace (B - b2z strict + - ((X j - Y j) mod order)) with (B - b2z strict - ((X j - Y j) mod order)) by ring.
        rewrite Zminus_mod_idemp_r. rewrite Z.mod_small; lia.
      - rewrite Zplus_mod_idemp_r. apply Z.mod_small. lia. }
    rewrite Ez in Hr.
    assert (Hnz' : strict = true \/ X j <> Y j).
    { destruct Hnz as [|Hnz]; [left; assumption|right]. intro E. apply (Hnz HM1). rewrite Hd, E, Z.sub_diag.
      apply (mod_small_0 Hp). }
    unfold cmp_result. destruct strict; simpl b2z in *; destruct less; cbn [Bool.eqb].
    + destruct (Z.leb_spec B (B - 1 + (Y j - X j))) as [L|L]; [right|left; exact Hr].
      split; [exact Hr|apply LXY; lia].
    + destruct (Z.leb_spec B (B - 1 + (X j - Y j))) as [L|L]; [right|left; exact Hr].
      split; [exact Hr|apply LYX; lia].
    + destruct (Z.leb_spec B (B - 0 + (Y j - X j))) as [L|L]; [left; exact Hr|right].
      split; [exact Hr|apply LYX; lia].
    + destruct (Z.leb_spec B (B - 0 + (X j - Y j))) as [L|L]; [left; exact Hr|right].
      split; [exact Hr|apply LXY; lia].
Qed.

End Cmp.
