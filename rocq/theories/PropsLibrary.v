(** C85: circuits put together from any gadgets of the library that are sound. *)
From Coq Require Import ZArith List Bool Arith Lia Znumtheory.
From Verif Require Import Base FieldM FieldP ExprM BuilderM GadgetsM CryptoM CurveM Spec SpecCrypto SpecCurve ExprP MonoP LocalP SoundP HonestP ExecP CoreP CompleteP
  GadgetCompleteP SatP Demo PropLib AcceptP PropsBasic PropsCurve ProgramM ProgramP PropsProgram LibraryM LibraryP ComponentsP.
Import ListNotations.
Open Scope Z_scope.

(** The components: operations and assertions on field elements and bits, splitting and joining, sums of words, bitwise operations and
    comparisons of words, random access, permutations, compression functions with the hashes and Merkle proofs built on them, permutations
    of several lanes and the sponges built on them, membership of a curve, and whole circuits.  Not here: the gadgets whose results the
    constraints do not determine (C24, C25, C27, C28, C48, C51, C53, C54, C73). *)
Inductive library {F : Field} : component -> Prop :=
| lib_op t o out : check1 t o = Some (t ++ out) -> library (c_op t o out)
| lib_bit : library c_bit
| lib_truth b : library (c_truth b)
| lib_split : library c_split
| lib_split_bounded n : library (c_split_bounded n)
| lib_join n : library (c_join n)
| lib_sum ns : library (c_sum ns)
| lib_sum_wrapping ns : library (c_sum_wrapping ns)
| lib_sum_checked ns : library (c_sum_checked ns)
| lib_wnot n : library (c_wnot n)
| lib_wand n : library (c_bitwise n bitwise_and Z.land)
| lib_wor n : library (c_bitwise n bitwise_or Z.lor)
| lib_wxor n : library (c_bitwise n bitwise_xor Z.lxor)
| lib_wless n : (0 < n)%nat -> (S (cmp_chunk_bits n) < max_bits)%nat -> library (c_wless n)
| lib_wgreater n : (0 < n)%nat -> (S (cmp_chunk_bits n) < max_bits)%nat -> library (c_wgreater n)
| lib_access n : (1 <= n)%nat -> (index_bits n < max_bits)%nat -> library (c_access n)
| lib_permutation n : library (c_permutation n)
| lib_compress m H : computes2 m H -> completes2 m H -> (forall x y, local (m x y)) -> library (c_compress m H)
| lib_hash m H iv n : 0 <= iv < order -> computes2 m H -> completes2 m H -> (forall x y, local (m x y)) -> library (c_hash m H iv n)
| lib_root m H n : computes2 m H -> completes2 m H -> (forall x y, local (m x y)) -> library (c_root m H n)
| lib_member m H n : computes2 m H -> completes2 m H -> (forall x y, local (m x y)) -> library (c_member m H n)
| lib_lanes m n f : computesl m n f -> completesl m n f -> (forall xs, local (m xs)) -> (forall l, length l = n -> length (f l) = n) ->
    library (c_lanes m n f)
| lib_sponge s p n outputs : (0 < bitrate s)%nat -> computesl (mp_permute (sp_perm s)) (bitrate s + capacity s) p ->
    completesl (mp_permute (sp_perm s)) (bitrate s + capacity s) p -> (forall xs, local (mp_permute (sp_perm s) xs)) ->
    (forall l, length l = (bitrate s + capacity s)%nat -> length (p l) = (bitrate s + capacity s)%nat) -> library (c_sponge s p n outputs)
| lib_point C : library (c_point C)
| lib_circuit p t t' outs to : (forall c is, In (c, is) p -> library c) -> typing p t = Some t' -> pick t' outs = Some to ->
    library (c_circuit p t outs to).
Definition from_library {F : Field} (p : circuit) : Prop := forall c is, In (c, is) p -> library c.
(** All arguments are field elements, and bits are passed where bits are wanted. *)
Definition well_typed {F : Field} (p : circuit) (n : nat) : Prop := exists t, typing p (fields n) = Some t.

Lemma library_correct {F : Field} : prime order -> 2 < order -> (4 <= max_bits)%nat -> forall c, library c -> correct c.
Proof.
  intros Hp H2 H4. induction 1.
  - apply (correct_op Hp H2 H4); assumption.
  - apply (correct_bit Hp H2 H4).
  - apply (correct_truth Hp H2 H4).
  - apply (correct_split Hp H2 H4).
  - apply (correct_split_bounded Hp H2 H4).
  - apply (correct_join Hp H2 H4).
  - apply (correct_sum Hp H2 H4).
  - apply (correct_sum_wrapping Hp H2 H4).
  - apply (correct_sum_checked Hp H2 H4).
  - apply (correct_wnot Hp H2 H4).
  - apply (correct_wand Hp H2 H4).
  - apply (correct_wor Hp H2 H4).
  - apply (correct_wxor Hp H2 H4).
  - apply (correct_wless Hp H2 H4); assumption.
  - apply (correct_wgreater Hp H2 H4); assumption.
  - apply (correct_access Hp H2 H4); assumption.
  - apply (correct_permutation Hp H2 H4).
  - apply (correct_compress Hp H2 H4); assumption.
  - apply (correct_hash Hp H2 H4); assumption.
  - apply (correct_root Hp H2 H4); assumption.
  - apply (correct_member Hp H2 H4); assumption.
  - apply (correct_lanes Hp H2 H4); assumption.
  - apply (correct_sponge Hp H2 H4); assumption.
  - apply (correct_point Hp H2 H4).
  - eapply correct_circuit; [|eassumption|eassumption]. intros c is I. eapply H0. exact I.
Qed.
Lemma circuit_correct {F : Field} : prime order -> 2 < order -> (4 <= max_bits)%nat -> forall p, from_library p -> all_correct p.
Proof. intros Hp H2 H4 p H c is I. apply (library_correct Hp H2 H4), (H c is I). Qed.
Lemma fields_fit {F : Field} w (xs : list expr) : fits (fields (length xs)) (map (ev w) xs).
Proof. apply fits_fields, map_length. Qed.

(** Every satisfying assignment of the circuit carries the values its meaning computes from the values of the arguments, and all the
    assertions hold for them. *)
Theorem C85_sound : forall (F : Field), prime order -> 2 < order -> (4 <= max_bits)%nat -> forall p xs, from_library p -> well_typed p (length xs) ->
  sound_call (construct p xs) (fun w out => meaning p (map (ev w) xs) = Some (map (ev w) out)).
Proof.
  intros F Hp H2 H4 p xs L [t T]. apply to_call. intros w Hw.
  eapply (snd_construct p (circuit_correct Hp H2 H4 p L)); [exact Hw|exact T|apply fields_fit].
Qed.
Print Assumptions C85_sound.

(** The values of the arguments determine all values of the circuit. *)
Theorem C85_deterministic : forall (F : Field), prime order -> 2 < order -> (4 <= max_bits)%nat -> forall p xs b out b' w1 w2,
  from_library p -> well_typed p (length xs) -> construct p xs b = Ok (out, b') ->
  wf_witness w1 -> wf_witness w2 -> sat w1 b' -> sat w2 b' -> map (ev w1) xs = map (ev w2) xs -> map (ev w1) out = map (ev w2) out.
Proof.
  intros F Hp H2 H4 p xs b out b' w1 w2 L T E W1 W2 S1 S2 EQ. pose proof (C85_sound F Hp H2 H4 p xs L T b out b' w1 E W1 S1) as R1.
  pose proof (C85_sound F Hp H2 H4 p xs L T b out b' w2 E W2 S2) as R2. cbv beta in R1, R2. rewrite EQ in R1. congruence.
Qed.
Print Assumptions C85_deterministic.

(** When the meaning is defined on the given values, building and executing the circuit succeeds, with the same results. *)
Theorem C85_complete : forall (F : Field), prime order -> 2 < order -> (4 <= max_bits)%nat -> forall p vals xs out,
  from_library p -> well_typed p (length xs) -> good_inputs vals -> on_inputs_all vals xs -> meaning p (map (wv vals) xs) = Some out ->
  runs vals (construct p xs) (fun r v => omap (e_evaluate v) r = Ok out).
Proof.
  intros F Hp H2 H4 p vals xs out L [t T] Hv Hx E. apply (to_runsl Hp); [exact Hv|].
  eapply (cmpl_construct p (circuit_correct Hp H2 H4 p L)); [apply hasl_input, Hx|exact T| |exact E]. apply fits_fields, map_length.
Qed.
Print Assumptions C85_complete.

(** When it is not, executing the circuit never reports success. *)
Theorem C85_rejects : forall (F : Field), prime order -> 2 < order -> (4 <= max_bits)%nat -> forall p vals xs,
  from_library p -> well_typed p (length xs) -> good_inputs vals -> on_inputs_all vals xs -> meaning p (map (wv vals) xs) = None ->
  never_accepts vals (construct p xs).
Proof.
  intros F Hp H2 H4 p vals xs L T Hv Hx E.
  eapply (rejected Hp); [exact Hv|apply mono_construct, (circuit_correct Hp H2 H4 p L)|apply (C85_sound F Hp H2 H4 p xs L T)|].
  intros w r Hw Hi R. assert (EQ : map (ev w) xs = map (wv vals) xs).
  { apply map_ext_in. intros x Hin. apply (ev_on_inputs vals); [exact Hi|]. unfold on_inputs_all in Hx. rewrite Forall_forall in Hx. auto. }
  rewrite EQ in R. congruence.
Qed.
Print Assumptions C85_rejects.

(** Inside a larger circuit: the witness found so far can be extended to the new wires exactly when the meaning is defined. *)
Theorem C85_extends_iff : forall (F : Field), prime order -> 2 < order -> (4 <= max_bits)%nat -> forall p xs b w,
  from_library p -> well_typed p (length xs) -> wf_builder b -> wf_witness w -> sat w b -> Forall (below (next b)) xs ->
  ((exists out b' w', construct p xs b = Ok (out, b') /\ wf_witness w' /\ (forall k, (k < next b)%nat -> w' k = w k) /\ sat w' b') <->
   exists vs, meaning p (map (ev w) xs) = Some vs).
Proof.
  intros F Hp H2 H4 p xs b w L T W Hw S Hx. split.
  - intros (out & b' & w' & E & W' & Ag & S'). exists (map (ev w') out).
    pose proof (C85_sound F Hp H2 H4 p xs L T b out b' w' E W' S') as R. cbv beta in R. rewrite <- R. f_equal. apply map_ext_in. intros x Hin.
    rewrite Forall_forall in Hx. symmetry. apply ev_ext. intros k Hk. apply Ag. apply (Hx x Hin k Hk).
  - intros [vs E]. destruct T as [t T].
    assert (Q : sat_call (construct p xs) (fun n u => n = next b /\ u = w) (fun _ _ => True)).
    { apply to_sat_call. intros s G [N U]. eapply csat_weaken; [apply csat_comp; [apply local_construct, (circuit_correct Hp H2 H4 p L)|]|].
      - eapply (cmpl_construct p (circuit_correct Hp H2 H4 p L)); [apply below_hasl; rewrite N; exact Hx|exact T|apply fits_fields, map_length|rewrite U; exact E].
      - auto. }
    destruct (Q b w W Hw S (conj eq_refl eq_refl)) as (out & b' & w' & E' & _ & W' & Ag & S' & _). eauto 8.
Qed.
Print Assumptions C85_extends_iff.

(** What the types promise: values marked as bits are bits, in every satisfying assignment. *)
Theorem C85_bits : forall (F : Field), prime order -> 2 < order -> (4 <= max_bits)%nat -> forall p xs t, from_library p ->
  typing p (fields (length xs)) = Some t ->
  sound_call (construct p xs) (fun w out => Forall2 (fun (b : bool) e => b = true -> ev w e = 0 \/ ev w e = 1) t out).
Proof.
  intros F Hp H2 H4 p xs t L T b out b' w E Hw S.
  pose proof (C85_sound F Hp H2 H4 p xs L (ex_intro _ t T) b out b' w E Hw S) as R. cbv beta in R.
  pose proof (meaning_fits p (circuit_correct Hp H2 H4 p L) _ _ _ _ T (fields_fit w xs) R) as H. clear - H. unfold fits in H.
  remember (map (ev w) out) as vs eqn:Ev. revert out Ev. induction H as [|x v t vs Hv _ IH]; intros [|e out] Ev; cbn in Ev; try discriminate; constructor.
  - injection Ev as -> _. exact Hv.
  - apply IH. injection Ev as _ ->. reflexivity.
Qed.
Print Assumptions C85_bits.

(** Example over F_11, with Davies-Meyer over two-round MiMC as compression function.  Inputs: root, leaf, sibling, index.  The inner circuit
    splits the index (one bit), asserts that the leaf is under the root, and returns the index bit.  The outer one splits the leaf into two
    bits, adds the index bit to it with a check for overflow, and joins. *)
Definition demo_inner : circuit :=
  let F : Field := F11 in [(c_split_bounded 1, [3%nat]); (c_member demo_hash demo_H 1, [0; 1; 4; 2]%nat)].
Definition demo_circuit : circuit :=
  let F : Field := F11 in
  [(c_circuit demo_inner (fields 4) [4%nat] [true], [0; 1; 2; 3]%nat); (c_split_bounded 2, [1%nat]); (c_sum_checked [2; 1]%nat, [5; 6; 4]%nat);
   (c_join 2, [7; 8]%nat)].
Lemma demo_from_library : from_library (F := F11) demo_circuit.
Proof.
  destruct demo_hash_facts as (A1 & A2 & A3). intros c is [E|[E|[E|[E|[]]]]]; injection E as <- <-.
  - eapply lib_circuit; [|vm_compute; reflexivity|vm_compute; reflexivity]. intros c is [E|[E|[]]]; injection E as <- <-; [apply lib_split_bounded|].
    apply lib_member; assumption.
  - apply lib_split_bounded.
  - apply lib_sum_checked.
  - apply lib_join.
Qed.
Example C85_example : let F : Field := F11 in
  from_library demo_circuit /\ well_typed demo_circuit 4 /\
  demo_H 2 7 = 8 /\ demo_H 7 2 = 3 /\
  meaning demo_circuit [3; 2; 7; 1] = Some [3; 2; 7; 1; 1; 0; 1; 1; 1; 3] /\
  meaning demo_circuit [8; 2; 7; 0] = Some [8; 2; 7; 0; 0; 0; 1; 0; 1; 2] /\
  meaning demo_circuit [2; 2; 7; 1] = None /\ meaning demo_circuit [3; 2; 7; 2] = None /\
  demo [3; 2; 7; 1] (construct demo_circuit [e_wire 1; e_wire 2; e_wire 3; e_wire 4]) (fun r => r) = Ok (true, [3; 2; 7; 1; 1; 0; 1; 1; 1; 3]).
Proof. intro F. split; [exact demo_from_library|]. split; [eexists; vm_compute; reflexivity|]. repeat (split; [vm_compute; reflexivity|]). vm_compute. reflexivity. Qed.
