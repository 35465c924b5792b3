(** C90: what execute does when a wire the user must supply has no value, and when a wire the circuit computes has one already. *)
From Coq Require Import ZArith List Bool Arith Lia Permutation.
From Verif Require Import Base FieldM FieldP ExprM BuilderM GadgetsM CryptoM CurveM WaksmanM Spec MonoP LocalP WaksmanP HonestP ExecP CoreP Demo RefuseP DetP
  PropsBuilder PropsDet.
Import ListNotations.
Open Scope nat_scope.

Section Inputs.
Context {F : Field}.
Lemma writes_adds deps o run : writes deps o run -> adds run.
Proof.
  intros (S & _ & [T|R]) v v' E.
  - intros k x Hk. destruct (T v v' E) as [U N]. pose proof (S N v v (fun _ _ => eq_refl) U U) as A. rewrite E in A. destruct A as [_ A].
    rewrite (proj1 (A k ltac:(intro I; rewrite (U k I) in Hk; discriminate))). exact Hk.
  - destruct R as (a & b & sa & sb & _ & _ & _ & _ & R). rewrite R in E. apply obind_ok in E. destruct E as (av & _ & E). apply obind_ok in E. destruct E as (bv & _ & E).
    exact (route_keeps _ _ _ _ _ _ E).
Qed.
Lemma evaluate_needs v e x : e_evaluate v e = Ok x -> forall k, In k (e_deps e) -> m_get k v <> None.
Proof.
  unfold e_evaluate, e_deps. generalize fzero as z. induction e as [|[j c] e IH]; intros z E k Hk; [destruct Hk|]. cbn [ofold fst snd map] in *.
  unfold v_get, ounwrap in E. destruct (m_get j v) as [y|] eqn:G; cbn [obind] in E; [|discriminate]. destruct Hk as [<-|Hk]; [congruence|exact (IH _ E k Hk)].
Qed.
Lemma constraint_needs v c b : c_evaluate v c = Ok b -> forall k, In k (e_deps (c_a c) ++ e_deps (c_b c) ++ e_deps (c_c c)) -> m_get k v <> None.
Proof.
  unfold c_evaluate. intros E k Hk. apply obind_ok in E. destruct E as (x & Ex & E). apply obind_ok in E. destruct E as (y & Ey & E). apply obind_ok in E. destruct E as (z & Ez & E).
  rewrite !in_app_iff in Hk. destruct Hk as [Hk|[Hk|Hk]]; [exact (evaluate_needs _ _ _ Ex k Hk)|exact (evaluate_needs _ _ _ Ey k Hk)|exact (evaluate_needs _ _ _ Ez k Hk)].
Qed.
Lemma program_total (Hord : (2 <= order)%Z) ws b : program ws b -> Forall no_fuel_issue (generators b) /\ Forall (fun g => adds (g_run g)) (generators b).
Proof.
  intro Hp. destruct (program_origin Hord ws b Hp) as (_ & L & -> & W & _). split; apply Forall_map; eapply Forall_impl; [|exact W| |exact W]; cbv beta; intros p Wp.
  - destruct Wp as (_ & N & _). exact N.
  - exact (writes_adds _ _ _ Wp).
Qed.
End Inputs.

(** Whatever values the wires are given, execute of a circuit built from the library stops: it returns or panics. *)
Theorem C90_terminates : forall (F : Field), (2 <= order)%Z -> forall ws b, program ws b -> forall v, execute (build b) v <> NoFuel.
Proof. intros F Hord ws b Hp v. apply execute_terminates. exact (proj1 (program_total Hord ws b Hp)). Qed.
Print Assumptions C90_terminates.

(** [os] lists the wires each generator sets, as in C76.  If one of these wires is given a value beforehand, execute panics, unless the generator
    is the router of a permutation network on three or more elements. *)
Theorem C90_preset_refused : forall (F : Field), (2 <= order)%Z -> forall ws b, program ws b ->
  exists os, length os = length (generators b) /\ Permutation (ws ++ concat os) (seq 1 (next b - 1)) /\
    forall v g o k, In (g, o) (combine (generators b) os) -> In k o -> m_get k v <> None ->
      execute (build b) v = Panic \/ router (g_inputs g) o (g_run g).
Proof.
  intros F Hord ws b Hp. destruct (program_origin Hord ws b Hp) as (_ & L & G & W & P). exists (map snd L). split; [rewrite G, !map_length; reflexivity|]. split; [exact P|].
  intros v g o k Hi Hk Hv. assert (IL : In (g, o) L).
  { rewrite G in Hi. clear - Hi. induction L as [|[g' o'] L IH]; cbn in Hi; [destruct Hi|]. destruct Hi as [E|Hi]; [left; exact E|right; exact (IH Hi)]. }
  pose proof W as W'. unfold writes_all in W'. rewrite Forall_forall in W'. destruct (W' _ IL) as (_ & _ & [T|R]); cbn [fst snd] in *; [left|right; exact R].
  destruct (program_total Hord ws b Hp) as [NF AD]. destruct (execute (build b) v) as [[ok v']| |] eqn:E; [exfalso|reflexivity|exfalso; exact (execute_terminates (build b) v NF E)].
  destruct (execute_rio _ _ _ _ E) as ((order & PO & R) & _). cbn [gd_generators build] in PO. apply (Permutation_Forall (Permutation_sym PO)) in AD.
  assert (Io : In g order) by (eapply Permutation_in; [apply Permutation_sym, PO|]; rewrite G; apply (in_map fst) in IL; exact IL). clear - R AD Io T Hk Hv.
  induction R as [|h gs u u1 u' _ Er R IH]; [destruct Io|]. inversion AD as [|? ? A1 A2]; subst. destruct Io as [->|Io].
  - destruct (T _ _ Er) as [U _]. exact (Hv (U k Hk)).
  - apply IH; auto. destruct (m_get k u) as [x|] eqn:Ex; [|congruence]. rewrite (A1 _ _ Er k x Ex). discriminate.
Qed.
Print Assumptions C90_preset_refused.

(** The exception is real for every such network: on lists that are permutations of each other, a router whose switches all have values already
    succeeds and changes nothing.  Whether those values are right is left to the constraints. *)
Theorem C90_router_accepts : forall (F : Field), (2 <= order)%Z -> forall deps o run, router deps o run -> exists a b, deps = flat_map e_deps a ++ flat_map e_deps b /\
  forall v av bv, omap (e_evaluate v) a = Ok av -> omap (e_evaluate v) b = Ok bv -> Permutation av bv -> (forall k, In k o -> m_get k v <> None) -> run v = Ok v.
Proof.
  intros F Hord deps o run (a & b & sa & sb & La & Ls & -> & -> & R). exists a, b. split; [reflexivity|]. intros v av bv Ea Eb P H. rewrite R, Ea, Eb. cbn [obind].
  apply route_all_set; auto. assert (L : length av = length a); [|lia]. clear - Ea. revert av Ea. induction a as [|x a IH]; intros av Ea; cbn [omap] in Ea; [inversion Ea; reflexivity|].
  apply obind_ok in Ea. destruct Ea as (y & _ & Ea). apply obind_ok in Ea. destruct Ea as (t & Et & Ea). inversion Ea. cbn [length]. f_equal. exact (IH t Et).
Qed.
Print Assumptions C90_router_accepts.

(** A wire the user asked for that is left without a value: execute panics if a generator reads it, and never returns true if a constraint
    mentions it. *)
Theorem C90_missing : forall (F : Field), (2 <= order)%Z -> forall ws b, program ws b ->
  forall v w, (forall k, m_get k v <> None -> k < next b -> k = ONE \/ In k ws) -> In w ws -> m_get w v = None ->
  ((exists g, In g (generators b) /\ In w (g_inputs g)) -> execute (build b) v = Panic) /\
  ((exists c, In c (constraints b) /\ In w (e_deps (c_a c) ++ e_deps (c_b c) ++ e_deps (c_c c))) -> forall v', execute (build b) v <> Ok (true, v')).
Proof.
  intros F Hord ws b Hp v w Hv Hw Nw. destruct (program_ready Hord ws b v Hp Hv) as (L & G & R & P). destruct (program_total Hord ws b Hp) as [NF AD].
  assert (ND : NoDup (ws ++ outs L)) by (eapply Permutation_NoDup; [apply Permutation_sym, P|apply seq_NoDup]).
  destruct (NoDup_app_parts _ _ ND) as (_ & _ & N3).
  assert (K : forall ok v', execute (build b) v = Ok (ok, v') -> m_get w v' = None).
  { intros ok v' E. pose proof E as E'. unfold build in E'. rewrite G in E'. destruct (execute_sets L _ v ok v' R E') as [_ S]. rewrite S; [exact Nw|]. apply N3, Hw. }
  split.
  - intros (g & Ig & Iw). destruct (execute (build b) v) as [[ok v']| |] eqn:E; [exfalso|reflexivity|exfalso; exact (execute_terminates (build b) v NF E)].
    apply (execute_stuck (build b) _ _ _ E AD g Ig w Iw). exact (K ok v' eq_refl).
  - intros (c & Ic & Iw) v' E. destruct (execute_rio _ _ _ _ E) as (_ & H). pose proof (proj1 H eq_refl) as HC. rewrite Forall_forall in HC. specialize (HC c Ic).
    exact (constraint_needs _ _ _ HC w Iw (K _ _ E)).
Qed.
Print Assumptions C90_missing.

(** Six wires of the user, the product of the first two (wire 7) and a check that the last three are a permutation of the first three (first
    switch: wire 8).  A value for wire 7 is refused even when it is the right one; a value for the switch is taken, and a wrong one makes execute
    panic on a correct permutation.  Without wire 1 execute panics. *)
Definition inputs_demo {F : Field} : B unit := p <- product (e_wire 1) (e_wire 2) ;; assert_permutation [e_wire 1; e_wire 2; e_wire 3] [e_wire 4; e_wire 5; e_wire 6].
Example C90_example : let F : Field := F97 in exists b, program [1; 2; 3; 4; 5; 6] b /\
  let given := [(0, 1%Z); (2, 2%Z); (3, 3%Z); (4, 1%Z); (5, 2%Z); (6, 3%Z)] in
  let outcome v := match execute (build b) v with Ok (ok, _) => Some ok | _ => None end in
  outcome ((1, 1%Z) :: given) = Some true /\
  outcome ((7, 2%Z) :: (1, 1%Z) :: given) = None /\
  outcome ((8, 0%Z) :: (1, 1%Z) :: given) = Some true /\
  outcome ((8, 1%Z) :: (1, 1%Z) :: given) = None /\
  outcome given = None.
Proof.
  cbv zeta. assert (K : match @inputs_demo F97 (mkB 7 [] []) with Ok _ => true | _ => false end = true) by (vm_compute; reflexivity).
  destruct (@inputs_demo F97 (mkB 7 [] [])) as [[r b]| |] eqn:E; [|discriminate K|discriminate K]. clear K. exists b. split.
  - apply (@p_call F97 [1; 2; 3; 4; 5; 6] (mkB 7 [] []) unit (@inputs_demo F97) r b).
    + apply (@p_source F97 [] b_new _ (b_wires 6) (fun ks => ks) [1; 2; 3; 4; 5; 6]); [apply p_new|apply src_wires|reflexivity].
    + unfold inputs_demo. apply l_then; [apply l_product|intro; apply l_assert_permutation].
    + exact E.
  - assert (Eb : b = match @inputs_demo F97 (mkB 7 [] []) with Ok (_, x) => x | _ => b_new end) by (rewrite E; reflexivity). rewrite Eb. clear E Eb.
    vm_compute. repeat split.
Qed.

(** Constraints are checked in order: with the second wire missing, execute returns false if the first constraint fails and panics otherwise. *)
Example C90_example_order : let F : Field := F97 in
  let b := match (assert_zero (e_wire 1) ;; assert_zero (e_wire 2)) (mkB 3 [] []) with Ok (_, x) => x | _ => b_new end in
  (match execute (build b) [(0, 1%Z); (1, 5%Z)] with Ok (ok, _) => ok = false | _ => False end) /\ execute (build b) [(0, 1%Z); (1, 0%Z)] = Panic.
Proof. vm_compute. split; reflexivity. Qed.
