(** Model of /repo/src/util.rs, lcg.rs, matrices.rs, gadget_traits.rs, permutations.rs, mimc.rs,
    davies_meyer.rs, miyaguchi_preneel.rs, merkle_damgard.rs, merkle_trees.rs, sponge.rs,
    poseidon.rs and rescue.rs.  Trait objects are records of functions. *)
From Coq Require String.
From Coq Require Import ZArith List Bool Arith.
From Verif Require Import Base FieldM ExprM BuilderM.
Import ListNotations.
Open Scope Z_scope.

(** util.rs 11-18 [concat]. *)
Definition util_concat {A} (vs : list (list A)) : list A :=
  fold_left (fun result v => (result ++ v)%list) vs [].

(** util.rs 22-31 [join]: the separator is added when the text built so far is non-empty. *)
Definition util_join (sep : String.string) (strings : list String.string) : String.string :=
  fold_left (fun b s => String.append (if (String.length b =? 0)%nat then b else String.append b sep) s)
            strings String.EmptyString.

(** lcg.rs 18-26 [new], [next_u32]: 32-bit wrapping arithmetic; the state is the output. *)
Definition lcg_new : Z := 0.
Definition lcg_next (state : Z) : Z :=
  ((state * 1664525) mod 2 ^ 32 + 1013904223) mod 2 ^ 32.

(** lcg.rs 48-50: the full chunks, least significant first, and the new state. *)
Fixpoint lcg_chunks (n : nat) (state : Z) : list Z * Z :=
  match n with
  | O => ([], state)
  | S n' => let s1 := lcg_next state in
            let '(cs, s2) := lcg_chunks n' s1 in (s1 :: cs, s2)
  end.

(** num-bigint [BigUint::new]: little-endian base 2^32 digits. *)
Fixpoint from_digits (ds : list Z) : Z :=
  match ds with
  | [] => 0
  | d :: ds' => d + 2 ^ 32 * from_digits ds'
  end.

(** lcg.rs 42-55 [next_biguint_bits]. *)
Definition lcg_bits (bits : nat) (state : Z) : Z * Z :=
  let '(cs, s1) := lcg_chunks (bits / 32) state in
  let r := (bits mod 32)%nat in
  if (0 <? r)%nat then
    let s2 := lcg_next s1 in (from_digits (cs ++ [s2 mod 2 ^ Z.of_nat r]), s2)
  else (from_digits cs, s1).

(** lcg.rs 34-39: rejection sampling; unbounded in the source, bounded by fuel here. *)
Fixpoint lcg_loop (fuel : nat) (bits : nat) (limit state : Z) : outcome (Z * Z) :=
  match fuel with
  | O => NoFuel
  | S f => let '(n, s1) := lcg_bits bits state in
           if n <? limit then Ok (n, s1) else lcg_loop f bits limit s1
  end.

(** lcg.rs 32-40 [next_biguint]: [limit - 1] underflows (panics) for limit 0. *)
Definition lcg_biguint (fuel : nat) (limit state : Z) : outcome (Z * Z) :=
  let! _ := oassert (1 <=? limit) in
  lcg_loop fuel (zbits (limit - 1)) limit state.

(** gadget_traits.rs 9-16 [BlockCipher], 42-45 [CompressionFunction], 59-74 [Permutation],
    88-109 [MultiPermutation], 124-125 [HashFunction]: the required methods. *)
Record block_cipher := mkBC { encrypt : expr -> expr -> B expr; decrypt : expr -> expr -> B expr }.
Definition compression := expr -> expr -> B expr.
Record permutation := mkP { permute : expr -> B expr; p_inverse : expr -> B expr }.
Record multi_permutation := mkMP { mp_width : nat; mp_permute : list expr -> B (list expr);
                                   mp_inverse : list expr -> B (list expr) }.
Definition hash_function := list expr -> B expr.

Section Crypto.
Context {F : Field}.

(** lcg.rs 28-30 [next_element]. *)
Definition lcg_element (fuel : nat) (state : Z) : outcome (Z * Z) :=
  let! '(n, s1) := lcg_biguint fuel order state in
  let! e := el_from n in Ok (e, s1).

(** The body of all provided [*_evaluate] methods of gadget_traits.rs (20-27, 31-38, 49-55, 65-71,
    78-84, 98-105, 113-120, 129-136) and of group.rs 26-38, 73-86: build on a fresh builder, execute
    (the returned boolean is ignored), evaluate the result. *)
Definition run_const {A R} (m : B A) (f : values -> A -> outcome R) : outcome R :=
  let! '(a, b) := m b_new in
  let! '(_, v) := execute (build b) v_new in
  f v a.

(** gadget_traits.rs 20-38 [encrypt_evaluate], [decrypt_evaluate]. *)
Definition encrypt_evaluate (c : block_cipher) (key input : Z) : outcome Z :=
  run_const (encrypt c (e_const key) (e_const input)) e_evaluate.
Definition decrypt_evaluate (c : block_cipher) (key output : Z) : outcome Z :=
  run_const (decrypt c (e_const key) (e_const output)) e_evaluate.

(** gadget_traits.rs 49-55 [compress_evaluate]. *)
Definition compress_evaluate (c : compression) (x y : Z) : outcome Z :=
  run_const (c (e_const x) (e_const y)) e_evaluate.

(** gadget_traits.rs 65-84 [permute_evaluate], [inverse_evaluate]. *)
Definition permute_evaluate (p : permutation) (x : Z) : outcome Z :=
  run_const (permute p (e_const x)) e_evaluate.
Definition inverse_evaluate (p : permutation) (x : Z) : outcome Z :=
  run_const (p_inverse p (e_const x)) e_evaluate.

(** gadget_traits.rs 98-120: the same for several elements. *)
Definition mp_permute_evaluate (p : multi_permutation) (xs : list Z) : outcome (list Z) :=
  run_const (mp_permute p (map e_const xs)) (fun v => omap (e_evaluate v)).
Definition mp_inverse_evaluate (p : multi_permutation) (xs : list Z) : outcome (list Z) :=
  run_const (mp_inverse p (map e_const xs)) (fun v => omap (e_evaluate v)).

(** gadget_traits.rs 129-136 [hash_evaluate]. *)
Definition hash_evaluate (h : hash_function) (blocks : list Z) : outcome Z :=
  run_const (h (map e_const blocks)) e_evaluate.

(** permutations.rs 9-17 [InversePermutation]. *)
Definition inverse_permutation : permutation := mkP inverse_or_zero inverse_or_zero.

(** permutations.rs 28-34 [MonomialPermutation::new]; the structure is its exponent. *)
Definition monomial_new (n : Z) : outcome Z :=
  let! g := fgcd largest_element n in
  let! _ := oassert (g =? 1) in Ok n.

(** permutations.rs 54-59: add p - 1 until n divides.  Unbounded in the source; bounded by fuel here,
    [S n] steps are shown to suffice.  [is_multiple_of 0] panics. *)
Fixpoint monomial_exponent (fuel : nat) (e n : Z) : outcome Z :=
  match fuel with
  | O => NoFuel
  | S f => let e' := e + (order - 1) in
           if n =? 0 then Panic
           else if e' mod n =? 0 then el_from (e' / n)
           else monomial_exponent f e' n
  end.

(** permutations.rs 42-70 [MonomialPermutation::inverse]. *)
Definition monomial_inverse (n : Z) (x : expr) : B expr :=
  root <- b_wire ;;
  e <- exponentiation (e_wire root) n ;;
  assert_equal e x ;;
  exponent <- blift (monomial_exponent (S (Z.to_nat n)) order n) ;;
  b_generator (e_deps x) (fun v =>
    let! xv := e_evaluate v x in
    v_set root (fexp xv exponent) v) ;;
  bret (e_wire root).

(** permutations.rs 37-71 [Permutation for MonomialPermutation]. *)
Definition monomial (n : Z) : permutation :=
  mkP (fun x => exponentiation x n) (monomial_inverse n).

(** mimc.rs 46-66 [MiMCBlockCipher::encrypt]. *)
Definition mimc_encrypt (constants : list Z) (round : permutation) (key input : expr) : B expr :=
  c0 <- permute round (e_add input key) ;;
  c <- bfold (fun current rc => permute round (e_add current (e_add key (e_const rc)))) constants c0 ;;
  bret (e_add c key).

(** mimc.rs 68-86 [MiMCBlockCipher::decrypt]. *)
Definition mimc_decrypt (constants : list Z) (round : permutation) (key output : expr) : B expr :=
  c <- bfold (fun current rc =>
         r <- p_inverse round current ;;
         bret (e_sub r (e_add key (e_const rc)))) (rev constants) (e_sub output key) ;;
  c0 <- p_inverse round c ;;
  bret (e_sub c0 key).

(** mimc.rs 25-29 [MiMCBlockCipher::new]. *)
Definition mimc_new (constants : list Z) : outcome block_cipher :=
  let! three := el_from 3 in
  let! n := monomial_new three in
  Ok (mkBC (mimc_encrypt constants (monomial n)) (mimc_decrypt constants (monomial n))).

(** mimc.rs 108-111 [mimc_recommended_rounds]: ceil(n / log2 3) is the least r with 2^n <= 3^r.
    Simplification: exact instead of f64 arithmetic. *)
Fixpoint mimc_rounds_loop (fuel r : nat) (n : Z) : nat :=
  match fuel with
  | O => r
  | S f => if 2 ^ n <=? 3 ^ Z.of_nat r then r else mimc_rounds_loop f (S r) n
  end.
Definition mimc_recommended_rounds : nat := mimc_rounds_loop max_bits 0 (Z.of_nat max_bits).

(** mimc.rs 36-40: constants drawn one after the other. *)
Fixpoint lcg_elements (fuel n : nat) (state : Z) : outcome (list Z) :=
  match n with
  | O => Ok []
  | S n' => let! '(e, s1) := lcg_element fuel state in
            let! es := lcg_elements fuel n' s1 in Ok (e :: es)
  end.

(** mimc.rs 32-43 [Default for MiMCBlockCipher]. *)
Definition mimc_default (fuel : nat) : outcome block_cipher :=
  let! constants := lcg_elements fuel mimc_recommended_rounds lcg_new in
  mimc_new constants.

(** mimc.rs 96-105 [MiMCPermutation]. *)
Definition mimc_permutation (c : block_cipher) : permutation :=
  mkP (fun x => encrypt c e_zero x) (fun x => decrypt c e_zero x).

(** davies_meyer.rs 24-29 [DaviesMeyer::compress]. *)
Definition davies_meyer (c : block_cipher) : compression := fun x y =>
  e <- encrypt c y x ;; bret (e_add e x).

(** miyaguchi_preneel.rs 22-27 [MiyaguchiPreneel::compress]. *)
Definition miyaguchi_preneel (c : block_cipher) : compression := fun x y =>
  e <- encrypt c x y ;; bret (e_add (e_add e x) y).

(** merkle_damgard.rs 30-40 [MerkleDamgard::hash]. *)
Definition merkle_damgard (iv : Z) (compress : compression) : hash_function := fun blocks =>
  current <- bfold (fun current block => compress current block) blocks (e_const iv) ;;
  len <- blift (e_from_uint (Z.of_nat (length blocks))) ;;
  compress current len.

(** merkle_damgard.rs 24-27 [new_defaults]. *)
Definition merkle_damgard_defaults (fuel : nat) (compress : compression) : outcome hash_function :=
  let! '(iv, _) := lcg_element fuel lcg_new in Ok (merkle_damgard iv compress).

(** merkle_trees.rs 11-25 [MerklePath]: prefix bits and siblings; [new] asserts equal lengths. *)
Record merkle_path := mkPath { prefix : binexpr; siblings : list expr }.
Definition merkle_path_new (prefix : binexpr) (siblings : list expr) : outcome merkle_path :=
  let! _ := oassert (length prefix =? length siblings)%nat in Ok (mkPath prefix siblings).

(** merkle_trees.rs 38-48 [merkle_tree_step]. *)
Definition merkle_tree_step (compress : compression) (node sibling : expr) (bit : bexpr) : B expr :=
  left <- selection bit sibling node ;;
  compress left (e_sub (e_add sibling node) left).

(** merkle_trees.rs 51-63 [merkle_tree_root]. *)
Definition merkle_tree_root (compress : compression) (leaf : expr) (path : merkle_path) : B expr :=
  bfold (fun current bs => merkle_tree_step compress current (snd bs) (fst bs))
        (combine (prefix path) (siblings path)) leaf.

(** merkle_trees.rs 65-74 [assert_merkle_tree_membership]. *)
Definition assert_merkle_tree_membership (compress : compression) (leaf purported_root : expr)
  (path : merkle_path) : B unit :=
  computed <- merkle_tree_root compress leaf path ;;
  assert_equal purported_root computed.

(** sponge.rs 21-39 [Sponge], [Sponge::new]. *)
Record sponge := mkSponge { sp_perm : multi_permutation; bitrate : nat; capacity : nat }.
Definition sponge_new (p : multi_permutation) (bitrate capacity : nat) : outcome sponge :=
  let! _ := oassert (bitrate + capacity =? mp_width p)%nat in Ok (mkSponge p bitrate capacity).

(** sponge.rs 52-54: add a chunk to the front of the input section. *)
Fixpoint sponge_add (section chunk : list expr) : outcome (list expr) :=
  match chunk, section with
  | [], _ => Ok section
  | c :: cs, e :: es => let! r := sponge_add es cs in Ok (e_add e c :: r)
  | _ :: _, [] => Panic
  end.

(** sponge.rs 56-62 and 67-73: apply the permutation; [split_at] panics beyond the length. *)
Definition sponge_step (s : sponge) (input cap : list expr) : B (list expr * list expr) :=
  let old_state := (input ++ cap)%list in
  new_state <- mp_permute (sp_perm s) old_state ;;
  blift (oassert (length old_state =? length new_state)%nat) ;;
  blift (oassert (bitrate s <=? length new_state)%nat) ;;
  bret (firstn (bitrate s) new_state, skipn (bitrate s) new_state).

(** sponge.rs 65-76: squeeze until enough outputs are there; every step adds at least one (bitrate 0
    has panicked before), so [output_len] steps suffice. *)
Fixpoint sponge_squeeze (fuel : nat) (s : sponge) (input cap outputs : list expr) (output_len : nat)
  : B (list expr) :=
  if (length outputs <? output_len)%nat then
    match fuel with
    | O => blift NoFuel
    | S f => '(input', cap') <- sponge_step s input cap ;;
             sponge_squeeze f s input' cap' (outputs ++ input')%list output_len
    end
  else bret outputs.

(** sponge.rs 41-83 [Sponge::evaluate]. *)
Definition sponge_evaluate (s : sponge) (inputs : list expr) (output_len : nat) : B (list expr) :=
  cs <- blift (chunks (bitrate s) inputs) ;;
  '(input, cap) <- bfold (fun (st : list expr * list expr) chunk =>
       input' <- blift (sponge_add (fst st) chunk) ;;
       sponge_step s input' (snd st))
     cs (repeat e_zero (bitrate s), repeat e_zero (capacity s)) ;;
  outputs <- sponge_squeeze output_len s input cap input output_len ;;
  bret (firstn output_len outputs).

(** matrices.rs 9-22 [ElementMatrix::new], 70-78 [MdsMatrix::new]: the matrix is the list of its rows. *)
Definition matrix_new (rows : list (list Z)) : outcome (list (list Z)) :=
  match rows with
  | [] => Panic
  | r0 :: _ =>
    let! _ := oassert (0 <? length r0)%nat in
    let! _ := oassert (forallb (fun r => length r =? length r0)%nat rows) in
    Ok rows
  end.

(** matrices.rs 31-40 [Mul<&[Element]>]. *)
Definition matrix_mul_elements (rows : list (list Z)) (rhs : list Z) : list Z :=
  map (fun rv => fold_left (fun sum c => fadd sum (fmul (snd rv) c)) (fst rv) fzero)
      (combine rows rhs).

(** matrices.rs 42-51 [Mul<&[Expression]>]. *)
Definition matrix_mul (rows : list (list Z)) (rhs : list expr) : list expr :=
  map (fun rv => fold_left (fun sum c => e_add sum (e_scale (snd rv) c)) (fst rv) e_zero)
      (combine rows rhs).

(** matrices.rs 80-82 [MdsMatrix::inverse]: unimplemented!. *)
Definition mds_inverse (rows : list (list Z)) : outcome (list (list Z)) := Panic.

(** poseidon.rs 12-16 [PoseidonSbox], 19-28 [Poseidon], 105-108 [NumberOfRounds]. *)
Inductive poseidon_sbox := Exponentiation3 | Exponentiation5 | Inverse.
Record poseidon := mkPoseidon { pos_width : nat; pos_full : nat; pos_partial : nat;
                                pos_sbox : poseidon_sbox; pos_mds : list (list Z) }.

(** poseidon.rs 119-125 [sbox_to_permutation]. *)
Definition sbox_to_permutation (sb : poseidon_sbox) : outcome permutation :=
  match sb with
  | Inverse => Ok inverse_permutation
  | Exponentiation3 => let! e := el_from 3 in let! n := monomial_new e in Ok (monomial n)
  | Exponentiation5 => let! e := el_from 5 in let! n := monomial_new e in Ok (monomial n)
  end.

(** poseidon.rs 111-117 [sbox_permute], [sbox_inverse]. *)
Definition sbox_permute (sb : poseidon_sbox) (x : expr) : B expr :=
  p <- blift (sbox_to_permutation sb) ;; permute p x.
Definition sbox_inverse (sb : poseidon_sbox) (x : expr) : B expr :=
  p <- blift (sbox_to_permutation sb) ;; p_inverse p x.

(** Replace the first element ([current[0] = ...]; panics on an empty state). *)
Definition update_first (f : expr -> B expr) (l : list expr) : B (list expr) :=
  match l with
  | [] => blift Panic
  | e :: es => e' <- f e ;; bret (e' :: es)
  end.

(** poseidon.rs 144 and 176: is the round a full one? *)
Definition poseidon_full_round (p : poseidon) (round : nat) : bool :=
  let rounds := (pos_full p + pos_partial p)%nat in
  let side := (pos_full p / 2)%nat in
  (round <? side)%nat || (rounds - side <=? round)%nat.

(** poseidon.rs 133-158 [Poseidon::permute]. *)
Definition poseidon_permute (p : poseidon) (inputs : list expr) : B (list expr) :=
  blift (oassert (length inputs =? pos_width p)%nat) ;;
  blift (oassert (pos_full p mod 2 =? 0)%nat) ;;
  bfold (fun current round =>
      subbed <- (if poseidon_full_round p round then bmap (sbox_permute (pos_sbox p)) current
                 else update_first (sbox_permute (pos_sbox p)) current) ;;
      bret (matrix_mul (pos_mds p) subbed))
    (seq 0 (pos_full p + pos_partial p)) inputs.

(** poseidon.rs 160-187 [Poseidon::inverse]. *)
Definition poseidon_inverse (p : poseidon) (outputs : list expr) : B (list expr) :=
  blift (oassert (length outputs =? pos_width p)%nat) ;;
  blift (oassert (pos_full p mod 2 =? 0)%nat) ;;
  inv <- blift (mds_inverse (pos_mds p)) ;;
  bfold (fun current round =>
      let mixed := matrix_mul inv current in
      if poseidon_full_round p round then bmap (sbox_inverse (pos_sbox p)) mixed
      else update_first (sbox_inverse (pos_sbox p)) mixed)
    (seq 0 (pos_full p + pos_partial p)) outputs.

Definition poseidon_mp (p : poseidon) : multi_permutation :=
  mkMP (pos_width p) (poseidon_permute p) (poseidon_inverse p).

(** poseidon.rs 83-88: the default S-box. *)
Definition poseidon_default_sbox : outcome poseidon_sbox :=
  let! three := el_from 3 in
  let! g3 := fgcd largest_element three in
  if g3 =? 1 then Ok Exponentiation3
  else
    let! five := el_from 5 in
    let! g5 := fgcd largest_element five in
    if g5 =? 1 then Ok Exponentiation5 else Ok Inverse.

(** poseidon.rs 44-101 [PoseidonBuilder], [build] with an explicitly given number of rounds; the f64
    estimates of secure round numbers (192-302) are in RoundsM.v. *)
Definition poseidon_build (width : nat) (rounds : nat * nat) (sbox : option poseidon_sbox)
  (mds : option (list (list Z))) : outcome poseidon :=
  let! m := ounwrap mds in
  let! sb := match sbox with Some s => Ok s | None => poseidon_default_sbox end in
  Ok (mkPoseidon width (fst rounds) (snd rounds) sb m).

(** rescue.rs 11-20 [Rescue]. *)
Record rescue := mkRescue { res_width : nat; res_alpha : Z; res_rounds : nat;
                            res_mds : list (list Z) }.

(** rescue.rs 23-29 [pi_1], [pi_2]. *)
Definition rescue_pi1 (r : rescue) (x : expr) : B expr :=
  n <- blift (monomial_new (res_alpha r)) ;; permute (monomial n) x.
Definition rescue_pi2 (r : rescue) (x : expr) : B expr :=
  n <- blift (monomial_new (res_alpha r)) ;; p_inverse (monomial n) x.

(** rescue.rs 37-47 [Rescue::permute]. *)
Definition rescue_permute (r : rescue) (inputs : list expr) : B (list expr) :=
  bfold (fun current (_ : nat) =>
      c1 <- bmap (rescue_pi1 r) current ;;
      c2 <- bmap (rescue_pi2 r) (matrix_mul (res_mds r) c1) ;;
      bret (matrix_mul (res_mds r) c2))
    (seq 0 (res_rounds r)) inputs.

(** rescue.rs 49-52 [Rescue::inverse]: unimplemented!. *)
Definition rescue_inverse (r : rescue) (outputs : list expr) : B (list expr) := blift Panic.

Definition rescue_mp (r : rescue) : multi_permutation :=
  mkMP (res_width r) (rescue_permute r) (rescue_inverse r).

(** rescue.rs 127-129: the next [alpha] accepted by [is_prime]; additions wrap in the field. *)
Fixpoint next_prime_loop (fuel : nat) (alpha : Z) : outcome Z :=
  match fuel with
  | O => NoFuel
  | S f => let! p := is_prime fuel alpha in
           if p : bool then Ok alpha else next_prime_loop f (fadd alpha fone)
  end.

(** rescue.rs 121-132 [smallest_alpha]. *)
Fixpoint smallest_alpha_loop (fuel : nat) (alpha : Z) : outcome Z :=
  match fuel with
  | O => NoFuel
  | S f => let! g := fgcd largest_element alpha in
           if g =? 1 then Ok alpha
           else let! a := next_prime_loop fuel (fadd alpha fone) in smallest_alpha_loop f a
  end.
Definition smallest_alpha (fuel : nat) : outcome Z :=
  let! three := el_from 3 in smallest_alpha_loop fuel three.

(** rescue.rs 134-144 [secure_num_rounds], [integer_division_ceil] (panics for width 0). *)
Definition rescue_secure_rounds (security_bits width : nat) : nat :=
  Nat.max (((security_bits + 4 * width - 1) / (4 * width)) * 2) 10.

(** rescue.rs 69-117 [RescueBuilder::new], [build]. *)
Definition rescue_build (fuel width : nat) (alpha : option Z) (rounds security_bits : option nat)
  (mds : option (list (list Z))) : outcome rescue :=
  let! _ := oassert (0 <? width)%nat in
  let! a := match alpha with Some a => Ok a | None => smallest_alpha fuel end in
  let! m := ounwrap mds in
  match rounds, security_bits with
  | Some _, Some _ => Panic
  | Some r, None => Ok (mkRescue width a r m)
  | None, s => Ok (mkRescue width a (rescue_secure_rounds (match s with Some s => s | None => 128%nat end) width) m)
  end.

End Crypto.
