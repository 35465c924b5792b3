(** Specification functions for the cryptographic gadgets: plain arithmetic on integers modulo the
    order, independent of expressions, builders and the model's own helpers. *)
From Coq Require Import ZArith List Bool Arith.
From Verif Require Import Base FieldM ExprM BuilderM Spec MonoP HonestP.
Import ListNotations.
Open Scope Z_scope.

Section SpecCrypto.
Context {F : Field}.

(** ** What it means for a gadget to compute a function.
    The gadget only appends to the builder, and in every satisfying assignment its result is [f] of
    its arguments. *)
Definition computes1 (m : expr -> B expr) (f : Z -> Z) : Prop :=
  (forall x, mono (m x)) /\ forall x, sound_call (m x) (fun w r => ev w r = f (ev w x)).
Definition computes2 (m : expr -> expr -> B expr) (f : Z -> Z -> Z) : Prop :=
  (forall x y, mono (m x y)) /\ forall x y, sound_call (m x y) (fun w r => ev w r = f (ev w x) (ev w y)).
(** Lists of expressions, of a fixed length. *)
Definition computesl (m : list expr -> B (list expr)) (n : nat) (f : list Z -> list Z) : Prop :=
  (forall xs, mono (m xs)) /\
  forall xs, length xs = n -> sound_call (m xs) (fun w r => map (ev w) r = f (map (ev w) xs)).

(** An honest prover can always build and execute the gadget, and gets [f]. *)
Definition completes1 (m : expr -> B expr) (f : Z -> Z) : Prop :=
  forall D P s x a, has s x a -> comp D P s (m x) (done P (fun r s' => has s' r (f a))).
Definition completes2 (m : expr -> expr -> B expr) (f : Z -> Z -> Z) : Prop :=
  forall D P s x y a b, has s x a -> has s y b ->
    comp D P s (m x y) (done P (fun r s' => has s' r (f a b))).
Definition completesl (m : list expr -> B (list expr)) (n : nat) (f : list Z -> list Z) : Prop :=
  forall D P s xs l, length xs = n -> hasl s xs l ->
    comp D P s (m xs) (done P (fun r s' => hasl s' r (f l))).

(** ** MiMC: x -> (x + k)^n, then (x + k + c)^n for each constant, then + k. *)
Definition mimc_round (n k x c : Z) : Z := ((x + k + c) ^ n) mod order.
Definition mimc_fun (n : Z) (constants : list Z) (k x : Z) : Z :=
  (fold_left (mimc_round n k) constants (mimc_round n k x 0) + k) mod order.

(** ** Merkle-Damgard: fold over the blocks, then the number of blocks. *)
Definition md_fun (H : Z -> Z -> Z) (iv : Z) (blocks : list Z) : Z :=
  H (fold_left H blocks iv) (Z.of_nat (length blocks)).

(** ** Merkle path: at each level the bit says whether the node is the right child. *)
Definition path_step (H : Z -> Z -> Z) (node : Z) (bs : Z * Z) : Z :=
  if fst bs =? 0 then H node (snd bs) else H (snd bs) node.
Definition path_fun (H : Z -> Z -> Z) (leaf : Z) (bits siblings : list Z) : Z :=
  fold_left (path_step H) (combine bits siblings) leaf.

(** ** Collisions.  [collision H c1 c2]: two different argument pairs with the same image, the first among
    the calls [c1], the second among the calls [c2].  The lists below are the calls made while hashing,
    so a collision is not only claimed to exist but found among a few known values. *)
Definition collision (H : Z -> Z -> Z) (c1 c2 : list (Z * Z)) : Prop :=
  exists x y, In x c1 /\ In y c2 /\ x <> y /\ H (fst x) (snd x) = H (fst y) (snd y).

Fixpoint fold_calls (H : Z -> Z -> Z) (l : list Z) (st : Z) : list (Z * Z) :=
  match l with
  | [] => []
  | b :: l' => (st, b) :: fold_calls H l' (H st b)
  end.
Definition md_calls (H : Z -> Z -> Z) (iv : Z) (blocks : list Z) : list (Z * Z) :=
  fold_calls H blocks iv ++ [(fold_left H blocks iv, Z.of_nat (length blocks))].

Fixpoint path_calls (H : Z -> Z -> Z) (node : Z) (bits sibs : list Z) : list (Z * Z) :=
  match bits, sibs with
  | b :: bs, s :: ss =>
    (if b =? 0 then (node, s) else (s, node)) :: path_calls H (path_step H node (b, s)) bs ss
  | _, _ => []
  end.

(** A full binary Merkle tree: neighbours are hashed level by level. *)
Fixpoint pairs (l : list Z) : list (Z * Z) :=
  match l with
  | a :: b :: t => (a, b) :: pairs t
  | _ => []
  end.
Definition level_up (H : Z -> Z -> Z) (l : list Z) : list Z := map (fun ab => H (fst ab) (snd ab)) (pairs l).
Fixpoint tree_root (H : Z -> Z -> Z) (depth : nat) (leaves : list Z) : Z :=
  match depth with
  | O => nth 0 leaves 0
  | S d => tree_root H d (level_up H leaves)
  end.
Fixpoint tree_calls (H : Z -> Z -> Z) (depth : nat) (leaves : list Z) : list (Z * Z) :=
  match depth with
  | O => []
  | S d => pairs leaves ++ tree_calls H d (level_up H leaves)
  end.
(** The siblings on the way from leaf [i] to the root. *)
Fixpoint tree_path (H : Z -> Z -> Z) (depth : nat) (leaves : list Z) (i : nat) : list Z :=
  match depth with
  | O => []
  | S d => nth (if Nat.even i then i + 1 else i - 1) leaves 0 :: tree_path H d (level_up H leaves) (i / 2)
  end.
(** The number denoted by index bits, the bit for the leaf level first. *)
Definition bits_index (bits : list Z) : nat := Z.to_nat (bits_val bits).

(** ** Sponge over a permutation [p] of lists of length [r + c]. *)
(** Blocks of [r] values, the last one padded with zeros. *)
Fixpoint blocks_fuel (fuel r : nat) (l : list Z) : list (list Z) :=
  match fuel, l with
  | S f, _ :: _ => (firstn r l ++ repeat 0 (r - length l)) :: blocks_fuel f r (skipn r l)
  | _, _ => []
  end.
Definition padded_blocks (r : nat) (l : list Z) : list (list Z) := blocks_fuel (length l) r l.
(** Add a block to the first [r] lanes, then permute. *)
Definition absorb (p : list Z -> list Z) (r : nat) (st block : list Z) : list Z :=
  p (map (fun xy => (fst xy + snd xy) mod order) (combine (firstn r st) block) ++ skipn r st).
Definition absorb_all (p : list Z -> list Z) (r c : nat) (inputs : list Z) : list Z :=
  fold_left (absorb p r) (padded_blocks r inputs) (repeat 0 (r + c)).
(** The output stream: the first [r] lanes of the state, of the permuted state, ... *)
Fixpoint stream (p : list Z -> list Z) (r k : nat) (st : list Z) : list Z :=
  match k with
  | O => []
  | S k' => firstn r st ++ stream p r k' (p st)
  end.
Definition sponge_fun (p : list Z -> list Z) (r c : nat) (inputs : list Z) (n : nat) : list Z :=
  firstn n (stream p r (S n) (absorb_all p r c inputs)).

(** ** Matrices *)
Definition row_sum (l : list Z) : Z := fold_right Z.add 0 l.
(** The mathematical product: component i is sum_j m[i][j] * v[j]. *)
Definition mat_vec (m : list (list Z)) (v : list Z) : list Z :=
  map (fun row => row_sum (map (fun xy => fst xy * snd xy) (combine row v)) mod order) m.
(** What the code computes: component i is v[i] times the sum of row i. *)
Definition row_scale (m : list (list Z)) (v : list Z) : list Z :=
  map (fun rv => (snd rv * row_sum (fst rv)) mod order) (combine m v).

End SpecCrypto.

(** Poseidon and Rescue as implemented: [f] (and [g] for Rescue) on the lanes, then [row_scale]. *)
Section SpecPerm.
Context {F : Field}.
Definition on_first (f : Z -> Z) (l : list Z) : list Z :=
  match l with [] => [] | x :: t => f x :: t end.
(** The first and last [full/2] rounds apply the S-box to all lanes, the others to the first lane. *)
Definition full_round (full partial r : nat) : bool :=
  (r <? full / 2)%nat || (partial + full / 2 <=? r)%nat.
Definition poseidon_fun (f : Z -> Z) (full partial : nat) (mds : list (list Z)) (l : list Z) : list Z :=
  fold_left (fun cur r => row_scale mds (if full_round full partial r then map f cur else on_first f cur))
            (seq 0 (full + partial)) l.
Definition rescue_fun (f g : Z -> Z) (rounds : nat) (mds : list (list Z)) (l : list Z) : list Z :=
  fold_left (fun cur (_ : nat) => row_scale mds (map g (row_scale mds (map f cur)))) (seq 0 rounds) l.
End SpecPerm.
