(** C89: which word lengths can be compared. *)
From Coq Require Import ZArith List Bool Arith Lia Znumtheory.
From Verif Require Import Base FieldM FieldP ExprM BuilderM GadgetsM Spec ExprP BitsP SoundP CmpP CmpCompleteP GadgetCompleteP PrimeP CostP Demo PropLib PropsCost.
Import ListNotations.
Open Scope nat_scope.

(** The call succeeds on every builder. *)
Definition always_builds {A} (m : B A) : Prop := forall b, 0 < next b -> exists r b', m b = Ok (r, b').

(** The number of chunks of [c] bits in a word of [len] bits, and what a choice of [c] is charged. *)
Definition chunks_of (len c : nat) : nat := (len + c - 1) / c.
Definition charge (len c : nat) : nat := 3 * chunks_of len c + c.

Lemma argmin_first (f : nat -> nat) n : forall s best, best < s ->
  let r := fst (fold_left (fun best c => if f c <? snd best then (c, f c) else best) (seq s n) (best, f best)) in
  best <= r /\ forall c, c = best \/ s <= c -> c < r -> f r < f c.
Proof.
  induction n as [|n IH]; intros s best L; cbn [seq fold_left fst snd]; cbv zeta; [split; [lia|intros c [->|H] H'; lia]|].
  destruct (Nat.ltb_spec (f s) (f best)) as [B|B].
  - destruct (argmin_fold f (seq (S s) n) s (f s) eq_refl) as (_ & M & _). destruct (IH (S s) s ltac:(lia)) as [I1 I2].
    set (r := fst _) in *. clearbody r. split; [lia|]. intros c [->|Hc] Hr; [lia|]. destruct (Nat.eq_dec c s) as [->|N]; apply I2; lia.
  - destruct (IH (S s) best ltac:(lia)) as [I1 I2]. set (r := fst _) in *. clearbody r. split; [lia|].
    intros c [->|Hc] Hr; [apply I2; lia|]. destruct (Nat.eq_dec c s) as [->|N]; [|apply I2; lia]. pose proof (I2 best ltac:(lia) ltac:(lia)). lia.
Qed.
Lemma chunk_first {F : Field} len c : 1 <= c -> c < cmp_chunk_bits len -> charge len (cmp_chunk_bits len) < charge len c.
Proof.
  intros C1 C2. destruct (argmin_first (cmp_constraints len) (max_bits - 2) 2 1 ltac:(lia)) as [_ M]. fold (cmp_chunk_bits len) in M.
  specialize (M c ltac:(lia) C2). unfold cmp_constraints in M. unfold charge, chunks_of. lia.
Qed.
Lemma room_iff {F : Field} len : S (cmp_chunk_bits len) < max_bits <->
  exists c, 1 <= c /\ S c < max_bits /\ charge len c <= charge len (max_bits - 1).
Proof.
  destruct (cmp_chunk_bits_spec len) as (C1 & C2 & C3). split.
  - intro H. exists (cmp_chunk_bits len). split; [exact C1|]. split; [exact H|]. specialize (C3 (max_bits - 1) ltac:(lia)).
    unfold cmp_constraints in C3. unfold charge, chunks_of. lia.
  - intros (c & H1 & H2 & H3). destruct (le_lt_dec max_bits (S (cmp_chunk_bits len))) as [L|L]; [|exact L]. exfalso.
    assert (E : cmp_chunk_bits len = max_bits - 1) by lia. pose proof (chunk_first len c H1 ltac:(lia)) as K. rewrite E in K. lia.
Qed.

(** ** C89 *)
(** Two words of the same non-zero length can be compared exactly when the widest chunk, of max_bits - 1 bits, is not strictly cheaper than every
    narrower one. *)
Theorem C89_criterion : forall (F : Field), prime order -> forall x y less strict, length x = length y -> 0 < length x ->
  ((exists c, 1 <= c /\ S c < max_bits /\ charge (length x) c <= charge (length x) (max_bits - 1)) -> always_builds (cmp_binary x y less strict)) /\
  ((forall c, 1 <= c -> S c < max_bits -> charge (length x) (max_bits - 1) < charge (length x) c) -> always_panics (cmp_binary x y less strict)).
Proof.
  intros F Hp x y less strict L L0. split; intro H.
  - apply room_iff in H. intros b Hb. destruct (C28_cmp_binary_builds F Hp x y less strict L L0 H b Hb) as (r & b' & E & _). eauto.
  - apply (C28_cmp_binary_panics F Hp). right. right. destruct (le_lt_dec max_bits (S (cmp_chunk_bits (length x)))) as [K|K]; [exact K|]. exfalso.
    apply room_iff in K. destruct K as (c & H1 & H2 & H3). specialize (H c H1 H2). lia.
Qed.
Print Assumptions C89_criterion.

Lemma chunks_spec len c : 0 < c -> forall k, chunks_of len c <= k <-> len <= k * c.
Proof.
  intros C k. unfold chunks_of. split; intro H.
  - pose proof (Nat.div_mod (len + c - 1) c ltac:(lia)) as D. pose proof (Nat.mod_upper_bound (len + c - 1) c ltac:(lia)). nia.
  - apply Nat.lt_succ_r, Nat.div_lt_upper_bound; nia.
Qed.

(** No words longer than (max_bits - 2)^2 bits can be compared; words of exactly that length can. *)
Theorem C89_longest : forall (F : Field), prime order -> 3 <= max_bits -> forall x y less strict, length x = length y ->
  (length x = (max_bits - 2) * (max_bits - 2) -> always_builds (cmp_binary x y less strict)) /\
  ((max_bits - 2) * (max_bits - 2) < length x -> always_panics (cmp_binary x y less strict)).
Proof.
  intros F Hp M3 x y less strict L. set (n := length x) in *. assert (EM : exists m, max_bits = m + 3) by (exists (max_bits - 3); lia). destruct EM as [m EM]. split; intro H.
  - apply (C89_criterion F Hp x y less strict L); [fold n; nia|]. fold n. exists (m + 1). split; [lia|]. split; [lia|]. rewrite EM in *.
    replace (m + 3 - 1) with (m + 2) by lia. replace (m + 3 - 2) with (m + 1) in H by lia. unfold charge.
    pose proof (proj2 (chunks_spec n (m + 1) ltac:(lia) (m + 1)) ltac:(lia)) as U.
    assert (V : m + 1 <= chunks_of n (m + 2)).
    { destruct (le_lt_dec (m + 1) (chunks_of n (m + 2))) as [K|K]; [exact K|]. assert (K' : chunks_of n (m + 2) <= m) by lia.
      apply chunks_spec in K'; [|lia]. nia. }
    lia.
  - apply (C89_criterion F Hp x y less strict L); [fold n; lia|]. fold n. intros c C1 C2. rewrite EM in *.
    replace (m + 3 - 1) with (m + 2) by lia. replace (m + 3 - 2) with (m + 1) in H by lia. unfold charge.
    set (q := chunks_of n c). assert (HQ : n <= q * c) by (apply chunks_spec; [lia|unfold q; lia]).
    assert (Q : m + 2 <= q) by nia.
    assert (chunks_of n (m + 2) <= q - (m + 2 - c)) by (apply chunks_spec; [lia|]; nia). lia.
Qed.
Print Assumptions C89_longest.

(** All words up to (M - 3)(M / 3 + 1) bits can be compared, where M = max_bits - 1 is at least 6; from M = 7 on this is the exact point: words one
    bit longer cannot. *)
Theorem C89_first_failure : forall (F : Field), prime order -> forall M, max_bits = S M -> 6 <= M ->
  forall x y less strict, length x = length y ->
  (0 < length x <= (M - 3) * (M / 3 + 1) -> always_builds (cmp_binary x y less strict)) /\
  (7 <= M -> length x = (M - 3) * (M / 3 + 1) + 1 -> always_panics (cmp_binary x y less strict)).
Proof.
  intros F Hp M EM M6 x y less strict L. set (n := length x) in *. set (q0 := M / 3) in *.
  pose proof (Nat.div_mod M 3 ltac:(lia)) as DM. pose proof (Nat.mod_upper_bound M 3 ltac:(lia)) as RM. fold q0 in DM. set (r := M mod 3) in *. clearbody r q0. split.
  - intros [N0 N1]. apply (C89_criterion F Hp x y less strict L N0). fold n. rewrite EM. replace (S M - 1) with M by lia.
    exists (M - 3). split; [lia|]. split; [lia|]. unfold charge. set (q := chunks_of n M).
    assert (HQ : n <= q * M) by (apply chunks_spec; [lia|unfold q; lia]).
    assert (chunks_of n (M - 3) <= q + 1); [|lia]. apply chunks_spec; [lia|].
    destruct (le_lt_dec q0 q) as [K|K]; nia.
  - intros M7 E. apply (C89_criterion F Hp x y less strict L); [fold n; rewrite E; apply Nat.add_pos_r; lia|]. fold n. rewrite EM. replace (S M - 1) with M by lia. intros c C1 C2. unfold charge.
    assert (U : chunks_of n M <= q0) by (apply chunks_spec; [lia|]; nia).
    set (q := chunks_of n c). assert (HQ : n <= q * c) by (apply chunks_spec; [lia|unfold q; lia]).
    pose proof (Nat.div_mod (M - c) 3 ltac:(lia)) as DT. pose proof (Nat.mod_upper_bound (M - c) 3 ltac:(lia)) as RT. set (u := (M - c) / 3) in *. set (v := (M - c) mod 3) in *. clearbody u v.
    assert (KEY : q0 + u < q); [|lia].
    assert (G : (q0 + u) * c < n); [|nia]. assert (Ec : c = 3 * q0 + r - 3 * u - v) by lia.
    assert (I : (Z.of_nat n - 1 - Z.of_nat ((q0 + u) * c) =
      3 * Z.of_nat u * Z.of_nat u + Z.of_nat v * Z.of_nat q0 - (Z.of_nat r - Z.of_nat v) * Z.of_nat u + Z.of_nat r - 3)%Z).
    { rewrite E. replace (Z.of_nat ((M - 3) * (q0 + 1) + 1)) with ((3 * Z.of_nat q0 + Z.of_nat r - 3) * (Z.of_nat q0 + 1) + 1)%Z by nia.
      replace (Z.of_nat ((q0 + u) * c)) with ((Z.of_nat q0 + Z.of_nat u) * (3 * Z.of_nat q0 + Z.of_nat r - 3 * Z.of_nat u - Z.of_nat v))%Z by nia. ring. }
    assert (P : (0 <= 3 * Z.of_nat u * Z.of_nat u + Z.of_nat v * Z.of_nat q0 - (Z.of_nat r - Z.of_nat v) * Z.of_nat u + Z.of_nat r - 3)%Z).
    { clear I HQ U E Ec. assert (V : v = 0 \/ v = 1 \/ v = 2) by lia. assert (R : r = 0 \/ r = 1 \/ r = 2) by lia.
      destruct V as [V|[V|V]], R as [R|[R|R]]; rewrite V, R in *; clear V R; nia. }
    clear - I P. lia.
Qed.
Print Assumptions C89_first_failure.

(** On the fields the library ships. *)
Lemma bits_Bn128 : @max_bits Bn128 = S (Z.to_nat 253).
Proof. vm_compute. reflexivity. Qed.
Lemma bits_Bls12_381 : @max_bits Bls12_381 = S (Z.to_nat 254).
Proof. vm_compute. reflexivity. Qed.
Theorem C89_shipped_fields : forall x y less strict, length x = length y -> 0 < length x ->
  ((Z.of_nat (length x) <= 21250)%Z -> always_builds (@cmp_binary Bn128 x y less strict)) /\
  (Z.of_nat (length x) = 21251%Z \/ (63504 < Z.of_nat (length x))%Z -> always_panics (@cmp_binary Bn128 x y less strict)) /\
  ((Z.of_nat (length x) <= 21335)%Z -> always_builds (@cmp_binary Bls12_381 x y less strict)) /\
  (Z.of_nat (length x) = 21336%Z \/ (64009 < Z.of_nat (length x))%Z -> always_panics (@cmp_binary Bls12_381 x y less strict)).
Proof.
  intros x y less strict L L0.
  assert (K : forall (F : Field) m, prime order -> max_bits = S (Z.to_nat m) -> (100 <= m)%Z ->
    ((Z.of_nat (length x) <= (m - 3) * (m / 3 + 1))%Z -> always_builds (cmp_binary x y less strict)) /\
    (Z.of_nat (length x) = ((m - 3) * (m / 3 + 1) + 1)%Z \/ ((m - 1) * (m - 1) < Z.of_nat (length x))%Z -> always_panics (cmp_binary x y less strict))).
  { intros F m Hp EM M0. set (M := Z.to_nat m) in *. assert (Em : m = Z.of_nat M) by lia.
    assert (ED : (m / 3)%Z = Z.of_nat (M / 3)) by (rewrite Em, Nat2Z.inj_div; reflexivity).
    destruct (C89_first_failure F Hp M EM ltac:(lia) x y less strict L) as [A B].
    destruct (C89_longest F Hp ltac:(lia) x y less strict L) as [_ C]. rewrite EM in C. replace (S M - 2) with (M - 1) in C by lia.
    rewrite ED in *. clear ED EM. set (q := M / 3) in *. clearbody q M. split.
    - intro H. apply A. split; [exact L0|]. nia.
    - intros [H|H]; [apply B; nia|apply C; nia]. }
  destruct (K Bn128 253%Z prime_Bn128 bits_Bn128 ltac:(lia)) as [A B]. destruct (K Bls12_381 254%Z prime_Bls12_381 bits_Bls12_381 ltac:(lia)) as [C D].
  split; [exact A|]. split; [exact B|]. split; [exact C|exact D].
Qed.
Print Assumptions C89_shipped_fields.

Definition builds_at {F : Field} (n : nat) : bool :=
  match cmp_binary (map e_wire (seq 1 n)) (map e_wire (seq (1 + n) n)) true true (mkB (1 + 2 * n) [] []) with Ok _ => true | _ => false end.
(** Over F_11 (4 bits) words of 1, 2 and 4 bits can be compared; over F_251 (8 bits) everything up to 12 bits but not 13 or 14; 36 bits, and nothing longer. *)
Example C89_example : filter (@builds_at F11) (seq 0 20) = [1; 2; 4] /\
  filter (fun n => negb (@builds_at F251 n)) (seq 1 20) = [13; 14; 19; 20] /\ @builds_at F251 36 = true /\ existsb (@builds_at F251) (seq 37 10) = false.
Proof. split; [|split; [|split]]; vm_compute; reflexivity. Qed.
