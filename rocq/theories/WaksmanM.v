(** Model of /repo/src/bimap_util.rs, verify_permutation.rs and sorting.rs. *)
From Coq Require Import ZArith List Bool Arith.
From Verif Require Import Base FieldM ExprM BuilderM.
Import ListNotations.
Open Scope nat_scope.

(** bimap crate, [BiMap<usize, usize>]: pairs; [insert] drops every pair that shares a side. *)
Definition bimap := list (nat * nat).
Definition bm_insert (i j : nat) (m : bimap) : bimap :=
  (i, j) :: filter (fun p => negb (fst p =? i) && negb (snd p =? j)) m.
Definition bm_left (m : bimap) (i : nat) : option nat :=
  option_map snd (find (fun p => fst p =? i) m).
Definition bm_right (m : bimap) (j : nat) : option nat :=
  option_map fst (find (fun p => snd p =? j) m).

(** The map from values to the positions where they occur (BTreeMap<T, Vec<usize>>): an association list;
    the order of its keys is never observed.  [push] is [entry().or_insert_with(Vec::new).push()],
    [pop] is [get_mut().and_then(Vec::pop)]. *)
Section Positions.
Context {T : Type} (eqb : T -> T -> bool).
Fixpoint pos_push (t : T) (i : nat) (m : list (T * list nat)) : list (T * list nat) :=
  match m with
  | [] => [(t, [i])]
  | (t', l) :: m' => if eqb t t' then (t', l ++ [i]) :: m' else (t', l) :: pos_push t i m'
  end.
Fixpoint pos_pop (t : T) (m : list (T * list nat)) : option (nat * list (T * list nat)) :=
  match m with
  | [] => None
  | (t', l) :: m' =>
    if eqb t t' then
      match rev l with
      | [] => None
      | j :: l' => Some (j, (t', rev l') :: m')
      end
    else match pos_pop t m' with
         | None => None
         | Some (j, m'') => Some (j, (t', l) :: m'')
         end
  end.

(** bimap_util.rs 19-37 [bimap_from_lists]. *)
Definition bimap_from_lists (a b : list T) : outcome bimap :=
  let! _ := oassert (length a =? length b) in
  let positions := fold_left (fun m iv => pos_push (snd iv) (fst iv) m) (enumerate b) [] in
  let! st := ofold (fun st iv =>
               match pos_pop (snd iv) (fst st) with
               | Some (j, m') => Ok (m', bm_insert (fst iv) j (snd st))
               | None => Panic
               end) (enumerate a) (positions, []) in
  Ok (snd st).
End Positions.

(** The sides 0 and 1 are [false] and [true]; a two-element array is a pair. *)
Definition sel {A} (side : bool) (p : A * A) : A := if side then snd p else fst p.
Definition upd {A} (side : bool) (x : A) (p : A * A) : A * A := if side then (fst p, x) else (x, snd p).

(** BTreeMap<usize, bool>: sorted association list. *)
Fixpoint pr_get (k : nat) (m : list (nat * bool)) : option bool :=
  match m with
  | [] => None
  | (k', x) :: m' => if k =? k' then Some x else pr_get k m'
  end.
Fixpoint pr_insert (k : nat) (x : bool) (m : list (nat * bool)) : list (nat * bool) :=
  match m with
  | [] => [(k, x)]
  | (k', x') :: m' => if k <? k' then (k, x) :: m else if k =? k' then (k, x) :: m' else (k', x') :: pr_insert k x m'
  end.

Section Waksman.
Context {F : Field}.

(** the three pieces of state of [route]: partial routes, wire values, scan positions *)
Notation routes := (list (nat * bool) * list (nat * bool))%type.

Section Route.
Variables (sw : list wire * list wire) (bm : bimap).

(** verify_permutation.rs 145-151 [ab_map_by_side]. *)
Definition ab_map_by_side (side : bool) (i : nat) : outcome nat :=
  ounwrap (if side then bm_right bm i else bm_left bm i).

(** verify_permutation.rs 160-187 [enqueue_other_side]. *)
Definition enqueue_other_side (pr : routes) (v : values) (side : bool) (this_i : nat) (subnet : bool) : outcome routes :=
  let other_side := negb side in
  let! other_i := ab_map_by_side side this_i in
  let other_switch_i := other_i / 2 in
  if length (sel other_side sw) <=? other_switch_i then Ok pr else
  let! w := oindex (sel other_side sw) other_switch_i in
  if v_contains v w then Ok pr else
  let! other_i_sibling := osub (4 * other_switch_i + 1) other_i in
  match pr_get other_i_sibling (sel other_side pr) with
  | Some sibling_subnet => let! _ := oassert (negb (Bool.eqb subnet sibling_subnet)) in Ok pr
  | None =>
    let pr' := upd other_side (pr_insert other_i subnet (sel other_side pr)) pr in
    match pr_get other_i (sel other_side pr) with
    | Some old_subnet => let! _ := oassert (Bool.eqb subnet old_subnet) in Ok pr'
    | None => Ok pr'
    end
  end.

(** verify_permutation.rs 198-209 [route_switch]. *)
Definition route_switch (st : routes * values) (side : bool) (switch_index : nat) (swap : bool) : outcome (routes * values) :=
  let '(pr, v) := st in
  let! w := oindex (sel side sw) switch_index in
  let! v' := v_set_boolean w swap v in
  let! pr1 := enqueue_other_side pr v' side (switch_index * 2) swap in
  let! pr2 := enqueue_other_side pr1 v' side (switch_index * 2 + 1) (negb swap) in
  Ok (pr2, v').

(** verify_permutation.rs 231-234: the scan for the next switch that is not set; the remaining distance to
    the end bounds the number of steps. *)
Fixpoint scan (steps : nat) (v : values) (ws : list wire) (k : nat) : nat :=
  match steps with
  | O => k
  | S n => match nth_error ws k with
           | Some w => if v_contains v w then scan n v ws (S k) else k
           | None => k
           end
  end.

(** verify_permutation.rs 221-241: one side of one round. *)
Definition route_side (st : routes * values * (nat * nat)) (side : bool) : outcome (routes * values * (nat * nat)) :=
  let '(pr, v, si) := st in
  match sel side pr with
  | _ :: _ =>
    let! '(pr', v') := ofold (fun s e =>
          route_switch s side (fst e / 2) (Bool.eqb (Nat.even (fst e)) (snd e)))
        (sel side pr) (pr, v) in
    Ok (upd side [] pr', v', si)
  | [] =>
    let ws := sel side sw in
    let k := scan (length ws - sel side si) v ws (sel side si) in
    if k <? length ws then
      let! '(pr', v') := route_switch (pr, v) side k false in
      Ok (pr', v', upd side (S k) si)
    else Ok (pr, v, upd side k si)
  end.

(** verify_permutation.rs 219-242: rounds until both scans are complete. *)
Fixpoint route_loop (fuel : nat) (st : routes * values * (nat * nat)) : outcome values :=
  match fuel with
  | O => NoFuel
  | S f =>
    let '(pr, v, si) := st in
    if (fst si <? length (fst sw)) || (snd si <? length (snd sw)) then
      let! st1 := route_side st false in
      let! st2 := route_side st1 true in
      route_loop f st2
    else Ok v
  end.
End Route.

(** verify_permutation.rs 136-243 [route].  Every round sets a switch or advances a scan, so twice the
    number of switches plus one is enough fuel (proved). *)
Definition route (a_values b_values : list Z) (a_switches b_switches : list wire) (v : values) : outcome values :=
  let! _ := oassert (length a_values =? length b_values) in
  let n := length a_values in
  let! bm := bimap_from_lists Z.eqb a_values b_values in
  let sw := (a_switches, b_switches) in
  let! n1 := osub n 1 in
  let! pr :=
    (if Nat.even n then
       let! n2 := osub n 2 in
       let! pr := enqueue_other_side sw bm ([], []) v true n2 false in
       enqueue_other_side sw bm pr v true n1 true
     else
       let! pr := enqueue_other_side sw bm ([], []) v false n1 true in
       enqueue_other_side sw bm pr v true n1 true) in
  route_loop sw bm (S (2 * (length a_switches + length b_switches))) (pr, v, (0, 0)).

(** verify_permutation.rs 72-78 [create_switch]. *)
Definition create_switch (x y : expr) : B (wire * expr * expr) :=
  switch <- boolean_wire ;;
  c <- selection (e_wire switch) y x ;;
  bret (switch, c, e_sub (e_add x y) c).

(** verify_permutation.rs 41-67 [assert_permutation_2x2]. *)
Definition assert_permutation_2x2 (a b c d : expr) : B unit :=
  '(switch, c_target, d_target) <- create_switch a b ;;
  assert_equal c c_target ;;
  assert_equal d d_target ;;
  b_generator (e_deps a ++ e_deps b ++ e_deps c ++ e_deps d) (fun v =>
    let! av := e_evaluate v a in
    let! bv := e_evaluate v b in
    let! cv := e_evaluate v c in
    let! dv := e_evaluate v d in
    if (av =? cv)%Z && (bv =? dv)%Z then v_set_boolean switch false v
    else if (av =? dv)%Z && (bv =? cv)%Z then v_set_boolean switch true v
    else Panic).

(** verify_permutation.rs 97-108: the switches of one side. *)
Definition switch_layer (l : list expr) (num : nat) : B (list (wire * expr * expr)) :=
  bmap (fun i => x <- blift (oindex l (i * 2)) ;; y <- blift (oindex l (i * 2 + 1)) ;; create_switch x y) (seq 0 num).

(** verify_permutation.rs 24-38 [assert_permutation] and 80-132 [assert_permutation_recursive]; the recursive calls
    are on shorter lists, so the length is enough fuel (proved). *)
Fixpoint assert_permutation_fuel (fuel : nat) (a b : list expr) : B unit :=
  match fuel with
  | O => blift NoFuel
  | S f =>
    blift (oassert (length a =? length b)) ;;
    match a, b with
    | [], _ => bret tt
    | [x], y :: _ => assert_equal x y
    | [x1; x2], y1 :: y2 :: _ => assert_permutation_2x2 x1 x2 y1 y2
    | _, _ =>
      let n := length a in
      let even := Nat.even n in
      let a_num_switches := n / 2 in
      let b_num_switches := if even then a_num_switches - 1 else a_num_switches in
      las <- switch_layer a a_num_switches ;;
      lbs <- switch_layer b b_num_switches ;;
      let child_1_a := map (fun s => snd (fst s)) las in
      let child_2_a := map snd las in
      let child_1_b := map (fun s => snd (fst s)) lbs in
      let child_2_b := map snd lbs in
      '(c1a, c1b, c2a, c2b) <-
        (if even then
           x <- blift (oindex b (n - 2)) ;;
           y <- blift (oindex b (n - 1)) ;;
           bret (child_1_a, child_1_b ++ [x], child_2_a, child_2_b ++ [y])
         else
           x <- blift (oindex a (n - 1)) ;;
           y <- blift (oindex b (n - 1)) ;;
           bret (child_1_a, child_1_b, child_2_a ++ [x], child_2_b ++ [y])) ;;
      assert_permutation_fuel f c1a c1b ;;
      assert_permutation_fuel f c2a c2b ;;
      b_generator (flat_map e_deps a ++ flat_map e_deps b) (fun v =>
        let! a_values := omap (e_evaluate v) a in
        let! b_values := omap (e_evaluate v) b in
        route a_values b_values (map (fun s => fst (fst s)) las) (map (fun s => fst (fst s)) lbs) v)
    end
  end.
Definition assert_permutation (a b : list expr) : B unit := assert_permutation_fuel (S (length a)) a b.

(** [Vec::sort] on field elements, ordered by their canonical representatives: insertion sort, which returns the
    same list (the order is total and antisymmetric). *)
Fixpoint sort_insert (x : Z) (l : list Z) : list Z :=
  match l with
  | [] => [x]
  | y :: l' => if (x <=? y)%Z then x :: l else y :: sort_insert x l'
  end.
Definition sort_items (l : list Z) : list Z := fold_right sort_insert [] l.

(** sorting.rs 16-59 [sort_ascending]. *)
Definition sort_ascending (inputs : list expr) : B (list expr) :=
  let n := length inputs in
  output_wires <- b_wires n ;;
  let outputs := map e_wire output_wires in
  assert_permutation inputs outputs ;;
  n1 <- blift (osub n 1) ;;
  first <- bmap split_allowing_ambiguity (firstn n1 outputs) ;;
  last_output <- blift (oindex outputs n1) ;;
  last <- split last_output ;;
  let outputs_binary := first ++ [last] in
  bmap (fun i =>
      x <- blift (oindex outputs_binary i) ;;
      y <- blift (oindex outputs_binary (i + 1)) ;;
      assert_le_binary x y) (seq 0 n1) ;;
  b_generator (flat_map e_deps inputs) (fun v =>
    let! items := omap (e_evaluate v) inputs in
    ofold (fun v' ix => let! w := oindex output_wires (fst ix) in v_set w (snd ix) v') (enumerate (sort_items items)) v) ;;
  bret outputs.

(** sorting.rs 62-66 [sort_descending]. *)
Definition sort_descending (inputs : list expr) : B (list expr) :=
  items <- sort_ascending inputs ;; bret (rev items).

End Waksman.
