(** Concrete fields, boolean checkers and demonstration runs, used only in the [Example]s that show
    the hypotheses of the theorems can be met, and in refutations. *)
From Coq Require Import ZArith List Bool Arith Lia Znumtheory.
From Verif Require Import Base FieldM FieldP ExprM BuilderM Spec.
Import ListNotations.
Open Scope Z_scope.

(** ** small primes by trial division *)
Definition prime_check (p : Z) : bool :=
  (2 <=? p) && forallb (fun d => negb (p mod Z.of_nat d =? 0)) (seq 2 (Z.to_nat p - 2)).

Lemma prime_check_ok p : prime_check p = true -> prime p.
Proof.
  unfold prime_check. rewrite andb_true_iff, forallb_forall. intros [H2 H].
  apply Z.leb_le in H2. apply prime_alt. split; [lia|]. intros n Hn Hd.
  specialize (H (Z.to_nat n)). rewrite in_seq, Z2Nat.id in H by lia.
  apply Z.mod_divide in Hd; [|lia]. rewrite Hd in H. discriminate H. lia.
Qed.

Definition F3 : Field := mkField 3.
Definition F5 : Field := mkField 5.
Definition F13 : Field := mkField 13.
Definition F31 : Field := mkField 31.
Definition F97 : Field := mkField 97.
Definition F251 : Field := mkField 251.

Lemma prime_F3 : prime (@order F3). Proof. apply prime_check_ok. vm_compute. reflexivity. Qed.
Lemma prime_F5 : prime (@order F5). Proof. apply prime_check_ok. vm_compute. reflexivity. Qed.
Lemma prime_F7 : prime (@order F7). Proof. apply prime_check_ok. vm_compute. reflexivity. Qed.
Lemma prime_F11 : prime (@order F11). Proof. apply prime_check_ok. vm_compute. reflexivity. Qed.
Lemma prime_F13 : prime (@order F13). Proof. apply prime_check_ok. vm_compute. reflexivity. Qed.
Lemma prime_F31 : prime (@order F31). Proof. apply prime_check_ok. vm_compute. reflexivity. Qed.
Lemma prime_F97 : prime (@order F97). Proof. apply prime_check_ok. vm_compute. reflexivity. Qed.
Lemma prime_F251 : prime (@order F251). Proof. apply prime_check_ok. vm_compute. reflexivity. Qed.

Section Demo.
Context {F : Field}.

(** ** checkers *)
Definition wit (l : list Z) : witness := fun k => nth k l 0.

Definition wf_check (l : list Z) : bool :=
  (nth 0 l 0 =? 1) && (0 <? order) && forallb (fun x => (0 <=? x) && (x <? order)) l.

Lemma wf_check_ok l : wf_check l = true -> wf_witness (wit l).
Proof.
  unfold wf_check. rewrite !andb_true_iff, forallb_forall. intros [[H1 H0] H].
  split; [apply Z.eqb_eq, H1|]. intro k. unfold wit.
  destruct (le_lt_dec (length l) k) as [L|L].
  - rewrite nth_overflow by exact L. apply Z.ltb_lt in H0. lia.
  - specialize (H (nth k l 0) (nth_In l 0 L)). rewrite andb_true_iff, Z.leb_le, Z.ltb_lt in H. exact H.
Qed.

Definition sat_check (l : list Z) (b : builder) : bool :=
  forallb (fun c => (ev (wit l) (c_a c) * ev (wit l) (c_b c)) mod order =? ev (wit l) (c_c c)) (constraints b).

Lemma sat_check_ok l b : sat_check l b = true -> sat (wit l) b.
Proof.
  unfold sat_check, sat. rewrite forallb_forall, Forall_forall. intros H c Hc.
  apply Z.eqb_eq, H, Hc.
Qed.

(** ** runs *)
Definition inputs (vals : list Z) : values := combine (seq 1 (length vals)) vals ++ [(0%nat, 1)].

(** Build with [length vals] input wires, then execute on [vals]. *)
Definition run {A} (vals : list Z) (m : B A) : outcome (A * builder * bool * values) :=
  let! '(r, b') := m (mkB (S (length vals)) [] []) in
  let! '(ok, v) := execute (build b') (inputs vals) in
  Ok (r, b', ok, v).

(** Result of a run: the reported boolean and the values of the returned expressions. *)
Definition demo {A} (vals : list Z) (m : B A) (out : A -> list expr) : outcome (bool * list Z) :=
  let! '(r, _, ok, v) := run vals m in
  let! l := omap (e_evaluate v) (out r) in
  Ok (ok, l).

Definition full (b : builder) (v : values) : list Z :=
  map (fun k => match m_get k v with Some x => x | None => 0 end) (seq 0 (next b)).

(** The executed values are a well-formed satisfying witness. *)
Definition demo_check {A} (vals : list Z) (m : B A) (p : witness -> A -> bool) : bool :=
  match run vals m with
  | Ok (r, b', ok, v) => ok && wf_check (full b' v) && sat_check (full b' v) b' && p (wit (full b' v)) r
  | _ => false
  end.

(** Some builder and some well-formed satisfying witness meet the hypotheses of [sound_call], with [p]. *)
Definition sat_case {A} (m : B A) (p : witness -> A -> bool) : Prop :=
  exists b r b' w, m b = Ok (r, b') /\ wf_witness w /\ sat w b' /\ p w r = true.

Lemma demo_check_ok {A} vals (m : B A) p : demo_check vals m p = true -> sat_case m p.
Proof.
  unfold demo_check, run, sat_case. destruct (m (mkB (S (length vals)) [] [])) as [[r b']| |] eqn:E; try discriminate. simpl.
  destruct (execute (build b') (inputs vals)) as [[ok v]| |]; try discriminate. simpl.
  rewrite !andb_true_iff. intros [[[_ H1] H2] H3].
  exists (mkB (S (length vals)) [] []), r, b', (wit (full b' v)).
  repeat split; auto; try (apply wf_check_ok, H1). apply sat_check_ok, H2.
Qed.

(** A hand-made witness. *)
Definition forge_check {A} (b : builder) (l : list Z) (m : B A) (p : witness -> A -> bool) : bool :=
  match m b with
  | Ok (r, b') => wf_check l && sat_check l b' && p (wit l) r
  | _ => false
  end.

Lemma forge_check_ok {A} b l (m : B A) p : forge_check b l m p = true ->
  exists r b', m b = Ok (r, b') /\ wf_witness (wit l) /\ sat (wit l) b' /\ p (wit l) r = true.
Proof.
  unfold forge_check. destruct (m b) as [[r b']| |]; try discriminate.
  rewrite !andb_true_iff. intros [[H1 H2] H3]. exists r, b'. repeat split; auto;
    try (apply wf_check_ok, H1). apply sat_check_ok, H2.
Qed.

Lemma forge_case {A} b l (m : B A) p : forge_check b l m p = true -> sat_case m p.
Proof. intro H. destruct (forge_check_ok b l m p H) as (r & b' & E & W & S & P). exists b, r, b', (wit l). auto. Qed.

Lemma m_get_app {V} k (a b : list (nat * V)) :
  m_get k (a ++ b) = match m_get k a with Some x => Some x | None => m_get k b end.
Proof. induction a as [|[k' x] a IH]; simpl; [reflexivity|]. destruct (k =? k')%nat; auto. Qed.

Lemma m_get_inputs l : forall a k, m_get k (combine (seq a (length l)) l)
     = if ((a <=? k) && (k <? a + length l))%nat then Some (nth (k - a) l 0) else None.
Proof.
  induction l as [|x l IH]; intros a k; cbn [length seq combine m_get].
  - rewrite Nat.add_0_r. destruct ((a <=? k) && (k <? a))%nat eqn:E; [|reflexivity].
    apply andb_true_iff in E. rewrite Nat.leb_le, Nat.ltb_lt in E. lia.
  - rewrite IH. destruct (Nat.eqb_spec k a) as [->|N].
    + rewrite Nat.leb_refl, Nat.sub_diag. destruct (Nat.ltb_spec a (a + S (length l))); [reflexivity|lia].
    + destruct (Nat.leb_spec (S a) k), (Nat.leb_spec a k), (Nat.ltb_spec k (S a + length l)),
        (Nat.ltb_spec k (a + S (length l))); try lia; simpl; try reflexivity.
      replace (k - a)%nat with (S (k - S a)) by lia. reflexivity.
Qed.

Lemma inputs_ok vals : input_values vals (inputs vals).
Proof.
  unfold input_values, inputs. repeat split.
  - rewrite m_get_app, m_get_inputs. reflexivity.
  - intros i Hi. rewrite m_get_app, m_get_inputs.
    destruct (Nat.leb_spec 1 (S i)), (Nat.ltb_spec (S i) (1 + length vals)); try lia. simpl.
    rewrite Nat.sub_0_r. reflexivity.
  - intros k Hk. rewrite m_get_app, m_get_inputs.
    destruct (Nat.leb_spec 1 k), (Nat.ltb_spec k (1 + length vals)); try lia. simpl.
    destruct k; [lia|reflexivity].
Qed.

End Demo.

(** A dishonest prover: some generators (by position) are replaced by freely chosen values, the rest run
    as usual. *)
Section Forge.
Context {F : Field}.
Definition drop_at {A} (ds : list nat) (l : list A) : list A :=
  map snd (filter (fun p => negb (existsb (Nat.eqb (fst p)) ds)) (enumerate l)).

Definition forged {A} (vals : list Z) (m : B A) (ds : list nat) (pre : values) : list Z :=
  match m (mkB (S (length vals)) [] []) with
  | Ok (_, b') =>
    match execute (mkGadget (constraints b') (drop_at ds (generators b'))) (pre ++ inputs vals) with
    | Ok (_, v) => full b' v
    | _ => []
    end
  | _ => []
  end.
End Forge.
