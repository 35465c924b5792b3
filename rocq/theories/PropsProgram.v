(** C61: programs that use many gadgets together. *)
From Coq Require Import ZArith List Bool Arith Lia Znumtheory.
From Verif Require Import Base FieldM FieldP ExprM BuilderM GadgetsM Spec SpecCurve ExprP MonoP LocalP SoundP HonestP ExecP CoreP CompleteP
  GadgetCompleteP SatP Demo PropLib AcceptP PropsBasic ProgramM ProgramP.
Import ListNotations.
Open Scope Z_scope.

Lemma below_hasl {F : Field} (s : st) xs : Forall (below (nx s)) xs -> hasl s xs (map (ev (wt s)) xs).
Proof. intro H. unfold hasl. induction H as [|x xs Hx _ IH]; cbn [map]; constructor; [split; [exact Hx|reflexivity]|exact IH]. Qed.

(** Every satisfying assignment of a compiled program carries the values the program computes from the values of its arguments, and
    all the program's assertions hold for them. *)
Theorem C61_sound : forall (F : Field), prime order -> forall p xs, check p (repeat false (length xs)) = true ->
  sound_call (compile p xs) (fun w out => run p (map (ev w) xs) = Some (map (ev w) out)).
Proof.
  intros F Hp p xs C. apply to_call. intros w Hw. eapply (snd_compile Hp w Hw); [exact C|].
  rewrite <- (map_length (ev w) xs). apply typed_repeat.
Qed.
Print Assumptions C61_sound.

(** Values of the arguments determine all results. *)
Theorem C61_deterministic : forall (F : Field), prime order -> forall p xs b out b' w1 w2,
  check p (repeat false (length xs)) = true -> compile p xs b = Ok (out, b') ->
  wf_witness w1 -> wf_witness w2 -> sat w1 b' -> sat w2 b' -> map (ev w1) xs = map (ev w2) xs -> map (ev w1) out = map (ev w2) out.
Proof.
  intros F Hp p xs b out b' w1 w2 C E W1 W2 S1 S2 EQ. pose proof (C61_sound F Hp p xs C b out b' w1 E W1 S1) as R1.
  pose proof (C61_sound F Hp p xs C b out b' w2 E W2 S2) as R2. cbv beta in R1, R2. rewrite EQ in R1. congruence.
Qed.
Print Assumptions C61_deterministic.

(** When the program runs through on the given values, so does the built gadget, with the same results. *)
Theorem C61_complete : forall (F : Field), prime order -> 2 < order -> (4 <= max_bits)%nat -> forall p vals xs out,
  good_inputs vals -> on_inputs_all vals xs -> run p (map (wv vals) xs) = Some out ->
  runs vals (compile p xs) (fun r v => omap (e_evaluate v) r = Ok out).
Proof.
  intros F Hp H2 H4 p vals xs out Hv Hx E. apply (to_runsl Hp); [exact Hv|]. eapply (cmpl_compile Hp H2 H4); [apply hasl_input, Hx|exact E].
Qed.
Print Assumptions C61_complete.

(** When it does not, executing the gadget never reports success. *)
Theorem C61_rejects : forall (F : Field), prime order -> forall p vals xs,
  check p (repeat false (length xs)) = true -> good_inputs vals -> on_inputs_all vals xs -> run p (map (wv vals) xs) = None ->
  never_accepts vals (compile p xs).
Proof.
  intros F Hp p vals xs C Hv Hx E. eapply (rejected Hp); [exact Hv|mono|apply (C61_sound F Hp p xs C)|].
  intros w r Hw Hi R. assert (EQ : map (ev w) xs = map (wv vals) xs).
  { apply map_ext_in. intros x Hin. apply (ev_on_inputs vals); [exact Hi|]. unfold on_inputs_all in Hx. rewrite Forall_forall in Hx. auto. }
  rewrite EQ in R. congruence.
Qed.
Print Assumptions C61_rejects.

(** Inside a larger circuit: the witness found so far can be extended to the wires of the program exactly when the program runs through. *)
Theorem C61_extends_iff : forall (F : Field), prime order -> 2 < order -> (4 <= max_bits)%nat -> forall p xs b w,
  check p (repeat false (length xs)) = true -> wf_builder b -> wf_witness w -> sat w b -> Forall (below (next b)) xs ->
  ((exists out b' w', compile p xs b = Ok (out, b') /\ wf_witness w' /\ (forall k, (k < next b)%nat -> w' k = w k) /\ sat w' b') <->
   exists vs, run p (map (ev w) xs) = Some vs).
Proof.
  intros F Hp H2 H4 p xs b w C W Hw S Hx. split.
  - intros (out & b' & w' & E & W' & Ag & S'). exists (map (ev w') out).
    pose proof (C61_sound F Hp p xs C b out b' w' E W' S') as R. cbv beta in R. rewrite <- R. f_equal. apply map_ext_in. intros x Hin.
    rewrite Forall_forall in Hx. symmetry. apply ev_ext. intros k Hk. apply Ag. apply (Hx x Hin k Hk).
  - intros [vs E].
    assert (Q : sat_call (compile p xs) (fun n u => n = next b /\ u = w) (fun _ _ => True)).
    { apply to_sat_call. intros s G [N U]. eapply csat_weaken; [apply csat_comp; [local|]|].
      - eapply (cmpl_compile Hp H2 H4); [apply below_hasl; rewrite N; exact Hx|rewrite U; exact E].
      - auto. }
    destruct (Q b w W Hw S (conj eq_refl eq_refl)) as (out & b' & w' & E' & _ & W' & Ag & S' & _). eauto 8.
Qed.
Print Assumptions C61_extends_iff.

(** Example: the inputs are a, b, flag; the program asserts that flag is a bit, selects a or b, divides it by a - b, and asserts that the
    result is less than 60 and odd.  Over F_97: (11, 4, 1) runs, (11, 4, 0), (5, 5, 1) and (12, 4, 2) do not. *)
Definition demo_program : program :=
  [ABit 2; OSub 0 1; OSelect 2 0 1; ODiv 4 3; OConst 60; ALess 5 6; OBit 5 0; ATrue 7].
Example C61_example : let F : Field := F97 in
  check demo_program (repeat false 3) = true /\
  run demo_program [11; 4; 1] = Some [11; 4; 1; 7; 11; 57; 60; 1] /\
  run demo_program [11; 4; 0] = None /\ run demo_program [5; 5; 1] = None /\ run demo_program [12; 4; 2] = None /\
  demo [11; 4; 1] (compile demo_program [e_wire 1; e_wire 2; e_wire 3]) (fun r => r) = Ok (true, [11; 4; 1; 7; 11; 57; 60; 1]).
Proof. intro F. repeat (split; [vm_compute; reflexivity|]). vm_compute. reflexivity. Qed.
