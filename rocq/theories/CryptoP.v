(** Proofs about permutations.rs, mimc.rs, davies_meyer.rs, miyaguchi_preneel.rs, merkle_damgard.rs and
    merkle_trees.rs. *)
From Coq Require Import ZArith List Bool Arith Lia Znumtheory Permutation.
From Verif Require Import Base FieldM FieldP ExprM BuilderM GadgetsM CryptoM Spec SpecCrypto ExprP BitsP MonoP LocalP
  SoundP CmpP GadgetSoundP HonestP ExecP CoreP CompleteP CmpCompleteP GadgetCompleteP PropLib.
Import ListNotations.
Open Scope Z_scope.

Section CMono.
Context {F : Field}.
Lemma mono_monomial_inverse n x : mono (monomial_inverse n x).
Proof. unfold monomial_inverse. mono. Qed.
Lemma local_monomial_inverse n x : local (monomial_inverse n x).
Proof. unfold monomial_inverse. local. Qed.
End CMono.
Global Hint Resolve mono_exponentiation mono_monomial_inverse : mono.
Global Hint Resolve local_monomial_inverse : local.

Section Monomial.
Context {F : Field} (Hp : prime order).
Let Hord : 2 <= order := prime_ge2 Hp.

(** ** new *)
Lemma monomial_new_ok n : infield n -> monomial_new n = if Z.gcd (order - 1) n =? 1 then Ok n else Panic.
Proof using Hp.
  intro In. unfold monomial_new, largest_element. rewrite fgcd_ok; [|unfold infield in *; lia|exact In].
  cbn [obind]. destruct (Z.gcd (order - 1) n =? 1); reflexivity.
Qed.

Lemma pow_mod_l a n : (a mod order) ^ n mod order = a ^ n mod order.
Proof using Hp. destruct (Z_lt_le_dec n 0); [rewrite !Z.pow_neg_r by assumption; reflexivity|].
  revert n l. apply natlike_ind; [reflexivity|]. intros n Hn IH. rewrite !Z.pow_succ_r by exact Hn.
  rewrite Z.mul_mod_idemp_l by lia. rewrite <- (Z.mul_mod_idemp_r a) by lia. rewrite IH. apply Z.mul_mod_idemp_r. lia.
Qed.

Lemma fermat_exp a j : 0 <= j -> (a ^ (1 + (order - 1) * j)) mod order = a mod order.
Proof using Hp.
  intro Hj. revert j Hj. apply natlike_ind.
  - rewrite Z.mul_0_r, Z.pow_1_r. reflexivity.
  - intros j Hj IH. replace (1 + (order - 1) * Z.succ j) with ((1 + (order - 1) * j) + (order - 1)) by ring.
    rewrite Z.pow_add_r by nia. rewrite <- Z.mul_mod_idemp_l by lia. rewrite IH, Z.mul_mod_idemp_l by lia.
    rewrite <- Z.pow_succ_r by lia. replace (Z.succ (order - 1)) with order by lia. apply (fermat_full Hp a).
Qed.

(** the exponent found by the loop *)
Lemma inverse_exists n : 2 <= n < order -> Z.gcd (order - 1) n = 1 ->
  exists j, 2 <= j < n /\ (1 + (order - 1) * j) mod n = 0.
Proof using Hp.
  intros Hn Hg. assert (R : rel_prime (order - 1) n) by (apply Zgcd_1_rel_prime; exact Hg).
  destruct (rel_prime_bezout _ _ R) as [u v E]. exists ((- u) mod n).
  assert (Hz : (1 + (order - 1) * ((- u) mod n)) mod n = 0).
  { rewrite <- Z.add_mod_idemp_r, Z.mul_mod_idemp_r, Z.add_mod_idemp_r by lia.
    replace (1 + (order - 1) * - u) with (v * n) by nia. apply Z.mod_mul. lia. }
  split; [|exact Hz]. pose proof (Z.mod_pos_bound (- u) n ltac:(lia)) as Bd.
  assert ((- u) mod n <> 0).
  { intro E0. rewrite E0 in Hz. replace (1 + (order - 1) * 0) with 1 in Hz by ring. rewrite Z.mod_small in Hz; lia. }
  assert ((- u) mod n <> 1); [|lia].
  intro E1. rewrite E1 in Hz. replace (1 + (order - 1) * 1) with order in Hz by ring.
  apply Z.mod_divide in Hz; [|lia]. destruct (prime_divisors _ Hp n Hz) as [|[|[|]]]; lia.
Qed.

Lemma exponent_loop n j : 2 <= n < order -> 0 <= j < n -> (1 + (order - 1) * j) mod n = 0 ->
  forall fuel i, 1 <= i < j -> (Z.to_nat (j - i) <= fuel)%nat ->
  (forall k, i < k < j -> (1 + (order - 1) * k) mod n <> 0) ->
  monomial_exponent fuel (1 + (order - 1) * i) n = Ok ((1 + (order - 1) * j) / n).
Proof using Hp.
  intros Hn Hj Hz. induction fuel as [|fuel IH]; intros i Hi Hf Hm; [lia|]. cbn [monomial_exponent]. cbv zeta.
  replace (1 + (order - 1) * i + (order - 1)) with (1 + (order - 1) * (i + 1)) by ring.
  destruct (Z.eqb_spec n 0); [lia|].
  destruct (Z.eqb_spec ((1 + (order - 1) * (i + 1)) mod n) 0) as [E|E].
  - assert (i + 1 = j) as ->.
    { destruct (Z.eq_dec (i + 1) j); auto. exfalso. apply (Hm (i + 1)); [lia|exact E]. }
    apply el_from_ok. unfold infield. split; [apply Z.div_pos; nia|]. apply Z.div_lt_upper_bound; nia.
  - assert (i + 1 <> j) by (intro E1; apply E; rewrite E1; exact Hz). apply IH; [lia|lia|]. intros k Hk. apply Hm. lia.
Qed.

Lemma least_multiple n j : 2 <= j -> (1 + (order - 1) * j) mod n = 0 ->
  exists k, 2 <= k <= j /\ (1 + (order - 1) * k) mod n = 0 /\ forall i, 1 < i < k -> (1 + (order - 1) * i) mod n <> 0.
Proof using.
  intros Hj. replace j with (Z.of_nat (Z.to_nat j)) by lia. remember (Z.to_nat j) as m eqn:Em. assert (Hm : (2 <= m)%nat) by lia. clear j Hj Em.
  induction m as [m IH] using lt_wf_ind. intros Hz.
  assert (D : forall b, (exists i, 1 < i < Z.of_nat b /\ (1 + (order - 1) * i) mod n = 0) \/
                        (forall i, 1 < i < Z.of_nat b -> (1 + (order - 1) * i) mod n <> 0)).
  { induction b as [|b [(i & Hi & E)|N]]; [right; lia|left; exists i; split; [lia|exact E]|].
    destruct (Z.eq_dec ((1 + (order - 1) * Z.of_nat b) mod n) 0) as [E|E].
    - destruct (Z_lt_le_dec 1 (Z.of_nat b)); [left; exists (Z.of_nat b); split; [lia|exact E]|right; lia].
    - right. intros i Hi. destruct (Z.eq_dec i (Z.of_nat b)) as [->|]; [exact E|apply N; lia]. }
  destruct (D m) as [(i & Hi & E)|N].
  - destruct (IH (Z.to_nat i)) as (k & Hk & E' & N); [lia|lia|rewrite Z2Nat.id by lia; exact E|].
    exists k. split; [lia|]. split; auto.
  - exists (Z.of_nat m). split; [lia|]. split; auto.
Qed.

Lemma monomial_exponent_ok n : 2 <= n < order -> Z.gcd (order - 1) n = 1 ->
  exists k j, monomial_exponent (S (Z.to_nat n)) order n = Ok k /\ 1 <= k < order /\ 2 <= j < n /\
    k * n = 1 + (order - 1) * j.
Proof using Hp.
  intros Hn Hg. destruct (inverse_exists n Hn Hg) as (j0 & Hj0 & E0).
  destruct (least_multiple n j0 ltac:(lia) E0) as (j & Hj & E & N).
  exists ((1 + (order - 1) * j) / n), j. split.
  - replace order with (1 + (order - 1) * 1) at 1 by ring. apply exponent_loop; auto; lia.
  - apply Z.mod_divide in E; [|lia]. destruct E as [q E]. replace ((1 + (order - 1) * j) / n) with q by (rewrite E, Z.div_mul by lia; reflexivity).
    split; [nia|]. split; [lia|]. exact (eq_sym E).
Qed.

(** roots: x -> x^n is a bijection, with inverse x -> x^k *)
Lemma root_l n k j a : 0 <= n -> 0 <= k -> 0 <= j -> k * n = 1 + (order - 1) * j ->
  ((a ^ k mod order) ^ n) mod order = a mod order.
Proof using Hp.
  intros Hn Hk Hj E. rewrite pow_mod_l. rewrite <- Z.pow_mul_r by assumption. rewrite E. apply fermat_exp. exact Hj.
Qed.

Lemma pow_inj n k j a b : 0 <= n -> 0 <= k -> 0 <= j -> k * n = 1 + (order - 1) * j ->
  infield a -> infield b -> (a ^ n) mod order = (b ^ n) mod order -> a = b.
Proof using Hp.
  intros Hn Hk Hj E Ia Ib H.
  assert (G : forall c, infield c -> ((c ^ n mod order) ^ k) mod order = c).
  { intros c Ic. rewrite (root_l k n j) by (auto; lia). apply Z.mod_small. exact Ic. }
  rewrite <- (G a Ia), <- (G b Ib), H. reflexivity.
Qed.

Lemma exponent_bezout n : 1 <= n < order -> Z.gcd (order - 1) n = 1 ->
  exists k j, 0 <= k /\ 0 <= j /\ k * n = 1 + (order - 1) * j.
Proof using Hp.
  intros Hn Hg. destruct (Z.eq_dec n 1) as [->|N].
  - exists 1, 0. lia.
  - destruct (monomial_exponent_ok n) as (k & j & _ & Hk & Hj & E); [lia|exact Hg|]. exists k, j. lia.
Qed.

Lemma pow_inj_gcd n a b : 1 <= n < order -> Z.gcd (order - 1) n = 1 -> infield a -> infield b ->
  (a ^ n) mod order = (b ^ n) mod order -> a = b.
Proof using Hp.
  intros Hn Hg Ia Ib H. destruct (exponent_bezout n Hn Hg) as (k & j & Hk & Hj & E).
  apply (pow_inj n k j); auto; lia.
Qed.

(** the converse: without the gcd condition the map is not injective is not needed here *)

(** ** the gadgets *)
Lemma snd_monomial_inverse w (Hw : wf_witness w) n x : 0 <= n ->
  sound w (monomial_inverse n x) (fun r => (ev w r ^ n) mod order = ev w x).
Proof using Hp.
  intro Hn. unfold monomial_inverse.
  sbind (apply sound_true). intros root _. sbind (apply (snd_exponentiation Hp w Hw); exact Hn). intros e He.
  sbind (apply (snd_assert_equal Hp w Hw)). intros _ E. sbind (apply sound_true). intros k _.
  sbind (apply sound_true). intros ? _. apply sound_ret. rewrite <- He. exact E.
Qed.

Lemma cmpl_monomial_inverse D P s n x a k j : 2 <= n < order -> Z.gcd (order - 1) n = 1 ->
  monomial_exponent (S (Z.to_nat n)) order n = Ok k -> 1 <= k < order -> 2 <= j < n -> k * n = 1 + (order - 1) * j ->
  has s x a -> comp D P s (monomial_inverse n x) (done P (fun r s' => has s' r ((a ^ k) mod order))).
Proof using Hp.
  intros Hn Hg Ek Hk Hj E Hx. unfold monomial_inverse. pose proof (deps_lt _ _ _ Hx). pose proof (has_infield Hp s x a Hx) as Ia.
  cbind (apply comp_wire; exact (mod_infield Hp (a ^ k))). intros root P1 s1 X1 G1 (-> & -> & N1 & W1). carry.
  cbind (apply (cmpl_exponentiation Hp); [|apply has_wire; [exact Hp|exact G1|exact W1]]; lia).
  intros e P2 s2 X2 G2 [-> He]. carry. rewrite (root_l n k j) in He by lia. rewrite (Z.mod_small a) in He by exact Ia.
  cbind (eapply (cmpl_assert_equal Hp); [exact He|exact Hx]). intros _ P3 s3 _ _ [-> ->].
  eapply comp_liftb; [exact Ek|].
  cbind (eapply comp_gen1; [exact W1|assumption|
    intros v Hv; rewrite (eval_has Hp s2 x a v Hx) by assumption; cbn [obind]; rewrite (fexp_spec Hp) by lia; reflexivity]).
  intros _ P4 s4 _ _ [-> ->]. apply comp_ret. split; auto. apply has_wire; auto.
Qed.

(** Without an exponent inverse panics. *)
Lemma monomial_inverse_one_panics x b : 2 < order -> monomial_inverse 1 x b = Panic.
Proof using Hp.
  intro H2. assert (E : monomial_exponent (S (Z.to_nat 1)) order 1 = Panic).
  { cbn [Z.to_nat Pos.to_nat Pos.iter_op monomial_exponent]. change (1 =? 0) with false. cbv iota.
    rewrite Z.mod_1_r. cbn [Z.eqb]. rewrite Z.div_1_r. unfold el_from. replace (order + (order - 1) <? order) with false
      by (symmetry; apply Z.ltb_ge; lia). reflexivity. }
  assert (X : forall y c, exists e, exponentiation y 1 c = Ok (e, c)) by (intros; eexists; reflexivity).
  unfold monomial_inverse. unfold bbind at 1. cbn [b_wire]. unfold bbind at 1.
  destruct (X (e_wire (next b)) (mkB (S (next b)) (constraints b) (generators b))) as [e ->].
  unfold bbind, assert_equal, assert_product. unfold blift. rewrite E. reflexivity.
Qed.
End Monomial.

(** ** generic rules *)
Section Generic.
Context {F : Field} (Hp : prime order).
Let Hord : 2 <= order := prime_ge2 Hp.

Lemma sound_bfold w {A S} (f : S -> A -> B S) (I : list A -> S -> Prop) l :
  (forall s a, mono (f s a)) ->
  (forall pre a s, I pre s -> sound w (f s a) (I (pre ++ [a]))) ->
  forall pre s, I pre s -> sound w (bfold f l s) (I (pre ++ l)).
Proof using.
  intros Hm Hs. induction l as [|a l IH]; intros pre s H0; cbn [bfold].
  - rewrite app_nil_r. apply sound_ret. exact H0.
  - eapply sound_bind; [apply Hs; exact H0|intro; apply mono_bfold; exact Hm|].
    intros s' H1. replace (pre ++ a :: l) with ((pre ++ [a]) ++ l) by (rewrite <- app_assoc; reflexivity). apply IH. exact H1.
Qed.

Lemma comp_bfold D {A S} (f : S -> A -> B S) (I : list A -> S -> st -> Prop) P l :
  forall pre s x, I pre x s ->
  (forall p a x s1, In a l -> ext s s1 -> good s1 -> I p x s1 -> comp D P s1 (f x a) (done P (I (p ++ [a])))) ->
  comp D P s (bfold f l x) (done P (I (pre ++ l))).
Proof using.
  induction l as [|a l IH]; intros pre s x H0 Hs; cbn [bfold].
  - rewrite app_nil_r. apply comp_ret. split; auto.
  - apply comp_hon. intros G _ _. eapply comp_bind; [apply Hs; [left; reflexivity|apply ext_refl|exact G|exact H0]|].
    intros x' P1 s1 X1 _ [-> H1]. replace (pre ++ a :: l) with ((pre ++ [a]) ++ l) by (rewrite <- app_assoc; reflexivity).
    apply IH; [exact H1|]. intros p a' y s2 Ha X2 G2 HI. apply Hs; [right; exact Ha| |exact G2|exact HI]. eapply ext_trans; eauto.
Qed.

Lemma computes1_snd m f w x : wf_witness w -> computes1 m f -> sound w (m x) (fun r => ev w r = f (ev w x)).
Proof using. intros Hw [_ H] b r b' E S. exact (H x b r b' w E Hw S). Qed.
Lemma computes2_snd m f w x y : wf_witness w -> computes2 m f -> sound w (m x y) (fun r => ev w r = f (ev w x) (ev w y)).
Proof using. intros Hw [_ H] b r b' E S. exact (H x y b r b' w E Hw S). Qed.
Lemma computesl_snd m n f w xs : wf_witness w -> computesl m n f -> length xs = n ->
  sound w (m xs) (fun r => map (ev w) r = f (map (ev w) xs)).
Proof using. intros Hw [_ H] L b r b' E S. exact (H xs L b r b' w E Hw S). Qed.

Lemma ev_const_ w c : wf_witness w -> infield c -> ev w (e_const c) = c.
Proof using Hp. intros [W _] I. apply ev_const; auto. Qed.

(** ** permutations *)
Definition is_permutation (p : permutation) (f g : Z -> Z) : Prop :=
  computes1 (permute p) f /\ computes1 (p_inverse p) g /\ completes1 (permute p) f /\ completes1 (p_inverse p) g /\
  (forall a, infield a -> infield (f a) /\ infield (g a) /\ g (f a) = a /\ f (g a) = a).

Lemma computes1_exp n : 0 <= n -> computes1 (fun x => exponentiation x n) (fun a => (a ^ n) mod order).
Proof using Hp. intro Hn. split; [intro; apply mono_exponentiation|]. intro x. apply to_call. intros w Hw. apply (snd_exponentiation Hp w Hw); exact Hn. Qed.

Lemma monomial_is_permutation n : 2 <= n < order -> Z.gcd (order - 1) n = 1 ->
  exists g, is_permutation (monomial n) (fun a => (a ^ n) mod order) g.
Proof using Hp.
  intros Hn Hg. destruct (monomial_exponent_ok Hp n Hn Hg) as (k & j & Ek & Hk & Hj & E).
  assert (R : forall a, infield a -> ((a ^ k mod order) ^ n) mod order = a).
  { intros a Ia. rewrite (root_l Hp n k j) by lia. apply Z.mod_small, Ia. }
  exists (fun a => (a ^ k) mod order). unfold is_permutation, monomial. cbn [permute p_inverse].
  split; [apply computes1_exp; lia|]. split; [split|split; [|split]].
  - intro. apply mono_monomial_inverse.
  - intro x. apply to_call. intros w Hw. slast (apply (snd_monomial_inverse Hp w Hw); lia). intros r Hr.
    apply (pow_inj Hp n k j); [lia|lia|lia|exact E|apply (evi Hp)|apply (mod_infield Hp)|].
    rewrite R by apply (evi Hp). exact Hr.
  - intros D P s x a Hx. apply (cmpl_exponentiation Hp); [lia|exact Hx].
  - intros D P s x a Hx. eapply (cmpl_monomial_inverse Hp); eauto.
  - intros a Ia. split; [apply (mod_infield Hp)|]. split; [apply (mod_infield Hp)|]. split; [|apply R, Ia].
    rewrite (root_l Hp k n j) by (lia || rewrite Z.mul_comm; lia). apply Z.mod_small, Ia.
Qed.

(** ** MiMC *)
Definition menc_step (f : Z -> Z) (k x c : Z) : Z := f ((x + k + c) mod order).
Definition menc (f : Z -> Z) (cs : list Z) (k x : Z) : Z :=
  (fold_left (menc_step f k) cs (f ((x + k) mod order)) + k) mod order.
Definition mdec_step (g : Z -> Z) (k x c : Z) : Z := (g x - (k + c)) mod order.
Definition mdec (g : Z -> Z) (cs : list Z) (k y : Z) : Z :=
  (g (fold_left (mdec_step g k) (rev cs) ((y - k) mod order)) - k) mod order.

Lemma mimc_fun_menc n cs k x : mimc_fun n cs k x = menc (fun a => (a ^ n) mod order) cs k x.
Proof using Hp.
  unfold mimc_fun, menc. f_equal. f_equal.
  assert (E : forall y c, mimc_round n k y c = menc_step (fun a => (a ^ n) mod order) k y c).
  { intros. unfold mimc_round, menc_step. rewrite (pow_mod_l Hp). reflexivity. }
  assert (G : forall l y, fold_left (mimc_round n k) l y = fold_left (menc_step (fun a => (a ^ n) mod order) k) l y).
  { induction l as [|c l IH]; intro y; cbn [fold_left]; [reflexivity|]. rewrite E. apply IH. }
  rewrite G. f_equal. rewrite E. unfold menc_step. rewrite Z.add_0_r. reflexivity.
Qed.

Section Inv.
Context (f g : Z -> Z) (Hfg : forall a, infield a -> infield (f a) /\ infield (g a) /\ g (f a) = a /\ f (g a) = a).

Lemma mdec_menc cs k x : infield x -> mdec g cs k (menc f cs k x) = x.
Proof using Hp Hfg.
  intro Ix. unfold mdec, menc. zmod.
  assert (St : forall y c, infield y -> infield (menc_step f k y c) /\ mdec_step g k (menc_step f k y c) c = y).
  { intros y c Iy. unfold mdec_step, menc_step. destruct (Hfg ((y + k + c) mod order)) as (A1 & _ & A2 & _);
      [apply (mod_infield Hp)|]. split; [exact A1|]. rewrite A2. zmod. replace (y + k + c - (k + c)) with y by ring.
    apply Z.mod_small, Iy. }
  assert (G : forall l y, infield y -> infield (fold_left (menc_step f k) l y) /\
     fold_left (mdec_step g k) (rev l) (fold_left (menc_step f k) l y) = y).
  { induction l as [|c l IH]; intros y Iy; cbn [fold_left rev]; [auto|].
    destruct (St y c Iy) as [I1 E1]. destruct (IH _ I1) as [I2 E2]. split; [exact I2|].
    rewrite fold_left_app. cbn [fold_left]. rewrite E2. exact E1. }
  destruct (Hfg ((x + k) mod order)) as (A1 & _ & A2 & _); [apply (mod_infield Hp)|].
  destruct (G cs _ A1) as [I E]. set (z := fold_left (menc_step f k) cs (f ((x + k) mod order))) in *.
  replace (z + k - k) with z by ring. rewrite (Z.mod_small z) by exact I. rewrite E, A2. zmod.
  replace (x + k - k) with x by ring. apply Z.mod_small, Ix.
Qed.

Lemma menc_mdec cs k y : infield y -> menc f cs k (mdec g cs k y) = y.
Proof using Hp Hfg.
  intro Iy. unfold mdec, menc. zmod.
  assert (St : forall y c, infield y -> infield (mdec_step g k y c) /\ menc_step f k (mdec_step g k y c) c = y).
  { intros z c Iz. unfold mdec_step, menc_step. split; [apply (mod_infield Hp)|].
    rewrite <- Z.add_assoc. zmod. replace (g z - (k + c) + (k + c)) with (g z) by ring.
    destruct (Hfg z Iz) as (_ & I & _ & E). rewrite (Z.mod_small (g z)) by exact I. exact E. }
  assert (G : forall l y, infield y -> infield (fold_left (mdec_step g k) (rev l) y) /\
     fold_left (menc_step f k) l (fold_left (mdec_step g k) (rev l) y) = y).
  { induction l as [|c l IH]; intros z Iz; cbn [fold_left rev]; [auto|].
    rewrite fold_left_app. cbn [fold_left]. destruct (IH z Iz) as [I2 E2]. destruct (St _ c I2) as [I1 E1].
    split; [exact I1|]. rewrite E1. exact E2. }
  destruct (G cs ((y - k) mod order) (mod_infield Hp _)) as [I E].
  set (z := fold_left (mdec_step g k) (rev cs) ((y - k) mod order)) in *.
  replace (g z - k + k) with (g z) by ring. destruct (Hfg z I) as (_ & Ig & _ & Eg).
  rewrite (Z.mod_small (g z)) by exact Ig. rewrite Eg, E. zmod. replace (y - k + k) with y by ring. apply Z.mod_small, Iy.
Qed.
End Inv.

Lemma computes2_mimc_encrypt cs p f : Forall infield cs -> computes1 (permute p) f ->
  computes2 (mimc_encrypt cs p) (menc f cs).
Proof using Hp.
  intros Hc Hf. assert (M : forall x, mono (permute p x)) by apply Hf.
  assert (M' : forall key input, mono (mimc_encrypt cs p key input)).
  { intros. unfold mimc_encrypt. apply mono_bind; [apply M|intro]. apply mono_bind; [apply mono_bfold; intros; apply M|intro; apply mono_ret]. }
  split; [exact M'|]. intros key input. apply to_call. intros w Hw. unfold mimc_encrypt.
  eapply sound_bind; [apply (computes1_snd _ f w); auto|intro; apply mono_bind; [apply mono_bfold; intros; apply M|intro; apply mono_ret]|].
  cbv beta. intros c0 E0. rewrite (ev_add_mod Hp) in E0.
  eapply sound_bind with (Q := fun c => ev w c = fold_left (menc_step f (ev w key)) cs (ev w c0)); [|intro; apply mono_ret|].
  - clear E0 M'. revert c0. induction Hc as [|c cs Ic _ IH]; intro c0; cbn [bfold fold_left]; [apply sound_ret; reflexivity|].
    eapply sound_bind; [apply (computes1_snd _ f w); auto|intro; apply mono_bfold; intros; apply M|].
    cbv beta. intros c1 E1. eapply sound_weaken; [apply IH|]. cbv beta. intros r ->. f_equal.
    rewrite E1. unfold menc_step. f_equal. rewrite !(ev_add_mod Hp), (ev_const_ w c Hw Ic). zmod. f_equal. ring.
  - intros c Ec. apply sound_ret. rewrite (ev_add_mod Hp). unfold menc. rewrite Ec, E0. reflexivity.
Qed.

Lemma completes2_mimc_encrypt cs p f : Forall infield cs -> completes1 (permute p) f ->
  completes2 (mimc_encrypt cs p) (menc f cs).
Proof using Hp.
  intros Hc Hf D P s key input k x Hk Hx. unfold mimc_encrypt.
  eapply comp_bind; [apply Hf; apply (has_add Hp); [exact Hx|exact Hk]|]. intros c0 P1 s1 X1 G1 [-> H0]. carry.
  eapply comp_bind with (Q := done P (fun c s' => has s' c (fold_left (menc_step f k) cs (f ((x + k) mod order))))).
  - clear Hx. revert s1 c0 X1 G1 Hk H0. generalize (f ((x + k) mod order)) as z.
    induction Hc as [|c cs Ic _ IH]; intros z s1 c0 X1 G1 Hk H0; cbn [bfold fold_left]; [apply comp_ret; split; auto|].
    eapply comp_bind; [apply Hf; apply (has_add Hp); [exact H0|apply (has_add Hp); [exact Hk|apply (has_const Hp); auto]]|].
    intros c1 P2 s2 X2 G2 [-> H1]. carry. apply IH; auto; [eapply ext_trans; eauto|].
    eapply has_eq; [exact H1|]. unfold menc_step. f_equal. zmod. f_equal. ring.
  - intros c P2 s2 X2 G2 [-> Ec]. carry. apply comp_ret. split; auto. apply (has_add Hp); auto.
Qed.

Lemma computes2_mimc_decrypt cs p g : Forall infield cs -> computes1 (p_inverse p) g ->
  computes2 (mimc_decrypt cs p) (mdec g cs).
Proof using Hp.
  intros Hc Hf. assert (M : forall x, mono (p_inverse p x)) by apply Hf.
  assert (M1 : forall key current rc, mono (r <- p_inverse p current ;; bret (e_sub r (e_add key (e_const rc))))).
  { intros. apply mono_bind; [apply M|intro; apply mono_ret]. }
  split.
  { intros. unfold mimc_decrypt. apply mono_bind; [apply mono_bfold; intros; apply M1|intro]. apply mono_bind; [apply M|intro; apply mono_ret]. }
  intros key output. apply to_call. intros w Hw. unfold mimc_decrypt.
  eapply sound_bind with (Q := fun c => ev w c = fold_left (mdec_step g (ev w key)) (rev cs) ((ev w output - ev w key) mod order)).
  - apply Forall_rev in Hc. rewrite <- (ev_sub_mod Hp). generalize (e_sub output key) as c0.
    induction Hc as [|c l Ic _ IH]; intro c0; cbn [bfold fold_left]; [apply sound_ret; reflexivity|].
    eapply sound_bind with (Q := fun c1 => ev w c1 = mdec_step g (ev w key) (ev w c0) c); [|intro; apply mono_bfold; intros; apply M1|].
    + eapply sound_bind; [apply (computes1_snd _ g w); auto|intro; apply mono_ret|]. cbv beta. intros r Er. apply sound_ret.
      rewrite (ev_sub_mod Hp), (ev_add_mod Hp), (ev_const_ w c Hw Ic), Er. unfold mdec_step. zmod. reflexivity.
    + cbv beta. intros c1 E1. eapply sound_weaken; [apply IH|]. cbv beta. intros r ->. rewrite E1. reflexivity.
  - intro. apply mono_bind; [apply M|intro; apply mono_ret].
  - cbv beta. intros c Ec. eapply sound_bind; [apply (computes1_snd _ g w); auto|intro; apply mono_ret|]. cbv beta. intros r Er.
    apply sound_ret. rewrite (ev_sub_mod Hp), Er, Ec. reflexivity.
Qed.

Lemma completes2_mimc_decrypt cs p g : Forall infield cs -> completes1 (p_inverse p) g ->
  completes2 (mimc_decrypt cs p) (mdec g cs).
Proof using Hp.
  intros Hc Hf D P s key output k y Hk Hy. unfold mimc_decrypt. apply comp_hon. intros G _ _.
  eapply comp_bind with (Q := done P (fun c s' => has s' c (fold_left (mdec_step g k) (rev cs) ((y - k) mod order)))).
  - apply Forall_rev in Hc. assert (H0 : has s (e_sub output key) ((y - k) mod order)) by (apply (has_sub Hp); auto).
    revert H0. generalize ((y - k) mod order) as z, (e_sub output key) as c0. clear Hy.
    revert s G Hk. induction Hc as [|c l Ic _ IH]; intros s G Hk z c0 H0; cbn [bfold fold_left]; [apply comp_ret; split; auto|].
    eapply comp_bind with (Q := done P (fun c1 s' => has s' c1 (mdec_step g k z c))).
    + eapply comp_bind; [apply Hf; exact H0|]. intros r P2 s2 X2 G2 [-> Hr]. carry. apply comp_ret. split; auto.
      eapply has_eq; [apply (has_sub Hp); [exact Hr|apply (has_add Hp); [exact Hk|apply (has_const Hp); auto]]|].
      unfold mdec_step. zmod. reflexivity.
    + intros c1 P2 s2 X2 G2 [-> H1]. carry. apply IH; auto.
  - intros c P1 s1 X1 G1 [-> Hc1]. carry. eapply comp_bind; [apply Hf; exact Hc1|]. intros r P2 s2 X2 G2 [-> Hr]. carry.
    apply comp_ret. split; auto. apply (has_sub Hp); auto.
Qed.

(** ** compression functions *)
Lemma computes2_davies_meyer c E : computes2 (encrypt c) E ->
  computes2 (davies_meyer c) (fun x y => (E y x + x) mod order).
Proof using Hp.
  intros H. assert (M : forall x y, mono (encrypt c x y)) by apply H. split.
  - intros. unfold davies_meyer. apply mono_bind; [apply M|intro; apply mono_ret].
  - intros x y. apply to_call. intros w Hw. unfold davies_meyer.
    eapply sound_bind; [apply (computes2_snd _ E w); auto|intro; apply mono_ret|]. cbv beta. intros e He. apply sound_ret.
    rewrite (ev_add_mod Hp), He. reflexivity.
Qed.
Lemma completes2_davies_meyer c E : completes2 (encrypt c) E -> completes2 (davies_meyer c) (fun x y => (E y x + x) mod order).
Proof using Hp.
  intros H D P s x y a b Hx Hy. unfold davies_meyer. eapply comp_bind; [apply H; [exact Hy|exact Hx]|].
  intros e P1 s1 X1 G1 [-> He]. carry. apply comp_ret. split; auto. apply (has_add Hp); auto.
Qed.
Lemma computes2_miyaguchi_preneel c E : computes2 (encrypt c) E ->
  computes2 (miyaguchi_preneel c) (fun x y => (E x y + x + y) mod order).
Proof using Hp.
  intros H. assert (M : forall x y, mono (encrypt c x y)) by apply H. split.
  - intros. unfold miyaguchi_preneel. apply mono_bind; [apply M|intro; apply mono_ret].
  - intros x y. apply to_call. intros w Hw. unfold miyaguchi_preneel.
    eapply sound_bind; [apply (computes2_snd _ E w); auto|intro; apply mono_ret|]. cbv beta. intros e He. apply sound_ret.
    rewrite !(ev_add_mod Hp), He. zmod. reflexivity.
Qed.
Lemma completes2_miyaguchi_preneel c E : completes2 (encrypt c) E ->
  completes2 (miyaguchi_preneel c) (fun x y => (E x y + x + y) mod order).
Proof using Hp.
  intros H D P s x y a b Hx Hy. unfold miyaguchi_preneel. eapply comp_bind; [apply H; [exact Hx|exact Hy]|].
  intros e P1 s1 X1 G1 [-> He]. carry. apply comp_ret. split; auto.
  eapply has_eq; [apply (has_add Hp); [apply (has_add Hp)|]; eauto|]. zmod. reflexivity.
Qed.

(** ** Merkle-Damgard *)
Lemma snd_merkle_damgard w (Hw : wf_witness w) iv m H blocks : infield iv -> computes2 m H ->
  sound w (merkle_damgard iv m blocks) (fun r => Z.of_nat (length blocks) < order /\ ev w r = md_fun H iv (map (ev w) blocks)).
Proof using Hp.
  intros Iv Hm. assert (M : forall x y, mono (m x y)) by apply Hm. unfold merkle_damgard, md_fun.
  eapply sound_bind with (Q := fun c => ev w c = fold_left H (map (ev w) blocks) iv).
  - assert (G : forall c0, sound w (bfold (fun current block => m current block) blocks c0) (fun c => ev w c = fold_left H (map (ev w) blocks) (ev w c0))).
    { induction blocks as [|x l IH]; intro c0; cbn [bfold map fold_left]; [apply sound_ret; reflexivity|].
      eapply sound_bind; [apply (computes2_snd _ H w); auto|intro; apply mono_bfold; intros; apply M|]. cbv beta.
      intros c1 E1. eapply sound_weaken; [apply IH|]. cbv beta. intros r ->. rewrite E1. reflexivity. }
    eapply sound_weaken; [apply G|]. cbv beta. intros r ->. rewrite (ev_const_ w iv Hw Iv). reflexivity.
  - intro. apply mono_bind; [apply mono_lift|intro; apply M].
  - cbv beta. intros c Ec. unfold e_from_uint, el_from. destruct (Z.ltb_spec (Z.of_nat (length blocks)) order) as [L|L].
    + eapply sound_bind with (Q := fun e => e = e_const (Z.of_nat (length blocks))).
      * apply sound_lift. cbn. intros e [= <-]. reflexivity.
      * intro; apply M.
      * cbv beta. intros e ->. eapply sound_weaken; [apply (computes2_snd _ H w); auto|]. cbv beta. intros r ->. split; [exact L|].
        rewrite Ec, (ev_const_ w _ Hw) by (unfold infield; lia). rewrite map_length. reflexivity.
    + intros b r b' E _. discriminate.
Qed.

Lemma mono_merkle_damgard iv m blocks : (forall x y, mono (m x y)) -> mono (merkle_damgard iv m blocks).
Proof using. intro M. unfold merkle_damgard. apply mono_bind; [apply mono_bfold; intros; apply M|intro]. apply mono_bind; [apply mono_lift|intro; apply M]. Qed.

Lemma cmpl_merkle_damgard D P s iv m H blocks l : infield iv -> completes2 m H -> hasl s blocks l ->
  Z.of_nat (length blocks) < order ->
  comp D P s (merkle_damgard iv m blocks) (done P (fun r s' => has s' r (md_fun H iv l))).
Proof using Hp.
  intros Iv Hm Hl L. unfold merkle_damgard, md_fun. apply comp_hon. intros G _ _.
  pose proof (hasl_length _ _ _ Hl) as Ll. rewrite <- Ll.
  eapply comp_bind with (Q := done P (fun c s' => has s' c (fold_left H l iv))).
  - assert (H0 : has s (e_const iv) iv) by (apply (has_const Hp); auto). revert H0. generalize (e_const iv) as c0. generalize iv as z. clear L Ll.
    revert s l G Hl. induction blocks as [|x bl IH]; intros s l G Hl z c0 H0; inversion Hl as [|? a ? l' Hx Hl']; subst; cbn [bfold fold_left].
    + apply comp_ret. split; auto.
    + eapply comp_bind; [apply Hm; [exact H0|exact Hx]|]. intros c1 P1 s1 X1 G1 [-> H1]. apply IH; auto. eapply hasl_ext; eauto.
  - intros c P1 s1 X1 G1 [-> Hc]. unfold e_from_uint. eapply comp_liftb.
    { rewrite el_from_ok by (unfold infield; lia). reflexivity. }
    apply Hm; [exact Hc|]. apply (has_const Hp); [exact G1|unfold infield; lia].
Qed.

(** collisions *)
Lemma collision_incl H c1 c2 d1 d2 : incl c1 d1 -> incl c2 d2 -> collision H c1 c2 -> collision H d1 d2.
Proof using. intros I1 I2 (x & y & A & B & C & D). exists x, y. auto. Qed.

Lemma fold_calls_app H l1 : forall l2 st, fold_calls H (l1 ++ l2) st = fold_calls H l1 st ++ fold_calls H l2 (fold_left H l1 st).
Proof using. induction l1 as [|x l1 IH]; intros; cbn [app fold_calls fold_left]; [reflexivity|]. rewrite IH. reflexivity. Qed.

Lemma md_prefix_collision (H : Z -> Z -> Z) iv : forall l1 l2, length l1 = length l2 ->
  fold_left H l1 iv = fold_left H l2 iv -> l1 = l2 \/ collision H (fold_calls H l1 iv) (fold_calls H l2 iv).
Proof using.
  induction l1 as [|x l1 IH] using rev_ind; intros l2 L E.
  - left. destruct l2; [reflexivity|discriminate].
  - destruct l2 as [|y l2 _] using rev_ind; [rewrite app_length in L; simpl in L; lia|].
    rewrite !app_length in L. simpl in L. rewrite !fold_left_app in E. cbn [fold_left] in E. rewrite !fold_calls_app. cbn [fold_calls].
    assert (N : forall a b c d, (a, b) <> (c, d) -> H a b = H c d -> (a, b) = (fold_left H l1 iv, x) -> (c, d) = (fold_left H l2 iv, y) ->
      collision H (fold_calls H l1 iv ++ [(fold_left H l1 iv, x)]) (fold_calls H l2 iv ++ [(fold_left H l2 iv, y)])).
    { intros a b c d N0 E0 E1 E2. exists (a, b), (c, d). split; [rewrite E1; apply in_or_app; right; left; reflexivity|].
      split; [rewrite E2; apply in_or_app; right; left; reflexivity|]. auto. }
    destruct (Z.eq_dec x y) as [->|Nx].
    + destruct (Z.eq_dec (fold_left H l1 iv) (fold_left H l2 iv)) as [E'|Nf].
      * destruct (IH l2 ltac:(lia) E') as [->|C]; [left; reflexivity|right].
        eapply collision_incl; [| |exact C]; apply incl_appl, incl_refl.
      * right. apply (N (fold_left H l1 iv) y (fold_left H l2 iv) y); [congruence|exact E|reflexivity|reflexivity].
    + right. apply (N (fold_left H l1 iv) x (fold_left H l2 iv) y); [congruence|exact E|reflexivity|reflexivity].
Qed.

Lemma md_collision (H : Z -> Z -> Z) iv l1 l2 : l1 <> l2 -> md_fun H iv l1 = md_fun H iv l2 ->
  collision H (md_calls H iv l1) (md_calls H iv l2).
Proof using.
  unfold md_fun, md_calls. intros N E.
  assert (K : (fold_left H l1 iv, Z.of_nat (length l1)) <> (fold_left H l2 iv, Z.of_nat (length l2)) ->
    collision H (fold_calls H l1 iv ++ [(fold_left H l1 iv, Z.of_nat (length l1))]) (fold_calls H l2 iv ++ [(fold_left H l2 iv, Z.of_nat (length l2))])).
  { intro N'. eexists _, _. split; [apply in_or_app; right; left; reflexivity|].
    split; [apply in_or_app; right; left; reflexivity|]. split; [exact N'|exact E]. }
  destruct (Nat.eq_dec (length l1) (length l2)) as [L|L].
  - destruct (Z.eq_dec (fold_left H l1 iv) (fold_left H l2 iv)) as [E'|N'].
    + destruct (md_prefix_collision H iv l1 l2 L E') as [->|C]; [contradiction|].
      eapply collision_incl; [| |exact C]; apply incl_appl, incl_refl.
    + apply K. congruence.
  - apply K. intro C. injection C as _ C. lia.
Qed.

(** ** Merkle trees *)
Lemma snd_merkle_step w (Hw : wf_witness w) m H node sib bit : computes2 m H -> is_bit (ev w bit) ->
  sound w (merkle_tree_step m node sib bit) (fun r => ev w r = path_step H (ev w node) (ev w bit, ev w sib)).
Proof using Hp.
  intros Hm Hb. assert (M : forall x y, mono (m x y)) by apply Hm. unfold merkle_tree_step.
  eapply sound_bind; [apply (snd_selection Hp w Hw); exact Hb|intro; apply M|]. cbv beta. intros l El.
  eapply sound_weaken; [apply (computes2_snd _ H w); auto|]. cbv beta. intros r ->. unfold path_step. cbn [fst snd].
  rewrite (ev_sub_mod Hp), (ev_add_mod Hp), El. zmod. pose proof (evi Hp w sib) as Is. pose proof (evi Hp w node) as In.
  destruct Hb as [-> | ->]; cbn [Z.eqb Pos.eqb].
  - replace (ev w sib + ev w node - ev w node) with (ev w sib) by ring. rewrite Z.mod_small by exact Is. reflexivity.
  - replace (ev w sib + ev w node - ev w sib) with (ev w node) by ring. rewrite Z.mod_small by exact In. reflexivity.
Qed.

Lemma mono_merkle_step m node sib bit : (forall x y, mono (m x y)) -> mono (merkle_tree_step m node sib bit).
Proof using. intro M. unfold merkle_tree_step. apply mono_bind; [apply mono_selection|intro; apply M]. Qed.

Lemma snd_merkle_root w (Hw : wf_witness w) m H leaf path : computes2 m H -> bin_ok w (prefix path) ->
  sound w (merkle_tree_root m leaf path) (fun r => ev w r = path_fun H (ev w leaf) (map (ev w) (prefix path)) (map (ev w) (siblings path))).
Proof using Hp.
  intros Hm Hb. assert (M : forall x y, mono (m x y)) by apply Hm. unfold merkle_tree_root, path_fun.
  destruct path as [bits sibs]. cbn [prefix siblings] in *. revert leaf sibs. induction Hb as [|b bits Hb _ IH]; intros leaf sibs.
  - apply sound_ret. reflexivity.
  - destruct sibs as [|sib sibs]; [apply sound_ret; reflexivity|]. cbn [combine bfold map fold_left fst snd].
    eapply sound_bind; [apply (snd_merkle_step w Hw m H); auto|intro; apply mono_bfold; intros; apply mono_merkle_step, M|].
    cbv beta. intros r E. eapply sound_weaken; [apply IH|]. cbv beta. intros r' ->. rewrite E. reflexivity.
Qed.

Lemma mono_merkle_root m leaf path : (forall x y, mono (m x y)) -> mono (merkle_tree_root m leaf path).
Proof using. intro M. unfold merkle_tree_root. apply mono_bfold. intros. apply mono_merkle_step, M. Qed.

Lemma snd_merkle_membership w (Hw : wf_witness w) m H leaf root path : computes2 m H -> bin_ok w (prefix path) ->
  sound w (assert_merkle_tree_membership m leaf root path)
    (fun _ => ev w root = path_fun H (ev w leaf) (map (ev w) (prefix path)) (map (ev w) (siblings path))).
Proof using Hp.
  intros Hm Hb. unfold assert_merkle_tree_membership.
  eapply sound_bind; [apply (snd_merkle_root w Hw m H); auto|intro; apply mono_assert_equal|]. cbv beta. intros r <-.
  apply (snd_assert_equal Hp w Hw).
Qed.

Lemma cmpl_merkle_root D P m H path leaf : completes2 m H -> forall s a bits sibs, has s leaf a ->
  hasl s (prefix path) bits -> hasl s (siblings path) sibs -> Forall is_bit bits ->
  comp D P s (merkle_tree_root m leaf path) (done P (fun r s' => has s' r (path_fun H a bits sibs))).
Proof using Hp.
  intros Hm s a bits sibs Ha Hb Hs Bb. unfold merkle_tree_root, path_fun. destruct path as [pf sb]. cbn [prefix siblings] in *.
  revert s leaf a sb sibs Ha Hs Hb Bb. revert bits. induction pf as [|e pf IH]; intros bits s leaf a sb sibs Ha Hs Hb Bb;
    inversion Hb as [|? b ? bits' He Hb']; subst; cbn [combine].
  - apply comp_ret. split; auto.
  - destruct Hs as [|x c sb sibs Hx Hs]; cbn [combine bfold fold_left]; [apply comp_ret; split; auto|].
    inversion Bb as [|? ? B1 B2]; subst.
    eapply comp_bind with (Q := done P (fun r s' => has s' r (path_step H a (b, c)))).
    + cbn [fst snd]. unfold merkle_tree_step. eapply comp_bind; [apply (cmpl_selection Hp); [exact He|exact Hx|exact Ha|exact B1]|].
      intros l P1 s1 X1 G1 [-> Hl]. carry. eapply comp_weaken; [apply Hm; [exact Hl|apply (has_sub Hp); [apply (has_add Hp); [exact Hx|exact Ha]|exact Hl]]|].
      cbv beta. intros r P2 s2 _ _ [-> Hr]. split; auto. eapply has_eq; [exact Hr|]. unfold path_step. cbn [fst snd]. zmod.
      pose proof (has_infield Hp _ _ _ Hx) as Ic. pose proof (has_infield Hp _ _ _ Ha) as Ia.
      destruct B1 as [-> | ->]; cbn [Z.eqb Pos.eqb].
      * replace (c + a - a) with c by ring. rewrite Z.mod_small by exact Ic. reflexivity.
      * replace (c + a - c) with a by ring. rewrite Z.mod_small by exact Ia. reflexivity.
    + intros r P1 s1 X1 G1 [-> Hr]. cbn [fst snd]. apply IH; auto; eapply hasl_ext; eauto.
Qed.

Lemma cmpl_merkle_membership D P m H path leaf root s a bits sibs : completes2 m H -> has s leaf a ->
  hasl s (prefix path) bits -> hasl s (siblings path) sibs -> Forall is_bit bits -> has s root (path_fun H a bits sibs) ->
  comp D P s (assert_merkle_tree_membership m leaf root path) (done P (fun _ _ => True)).
Proof using Hp.
  intros Hm Ha Hb Hs Bb Hr. unfold assert_merkle_tree_membership.
  eapply comp_bind; [eapply (cmpl_merkle_root D P m H); eauto|]. intros r P1 s1 X1 G1 [-> Hr1]. carry.
  eapply comp_weaken; [eapply (cmpl_assert_equal Hp); [exact Hr|exact Hr1]|]. cbv beta. intros ? P2 s2 _ _ [-> ->]. split; auto.
Qed.

(** binding *)
Lemma path_collision (H : Z -> Z -> Z) : forall bits l1 l2 s1 s2, Forall is_bit bits -> length s1 = length bits -> length s2 = length bits ->
  path_fun H l1 bits s1 = path_fun H l2 bits s2 -> (l1 = l2 /\ s1 = s2) \/ collision H (path_calls H l1 bits s1) (path_calls H l2 bits s2).
Proof using.
  unfold path_fun. induction bits as [|b bits IH]; intros l1 l2 s1 s2 Hb L1 L2 E.
  - left. destruct s1, s2; try discriminate. simpl in E. auto.
  - destruct s1 as [|x s1], s2 as [|y s2]; try discriminate. inversion Hb as [|? ? B1 B2]; subst. cbn [combine fold_left] in E.
    apply IH in E; auto. cbn [path_calls]. destruct E as [[E ->]|C]; [|right; eapply collision_incl; [| |exact C]; apply incl_tl, incl_refl].
    unfold path_step in E. cbn [fst snd] in E. destruct (b =? 0).
    + destruct (Z.eq_dec l1 l2) as [->|N]; [destruct (Z.eq_dec x y) as [->|N]; [left; auto|]|]; right; eexists _, _;
        (split; [left; reflexivity|]; split; [left; reflexivity|]; split; [congruence|exact E]).
    + destruct (Z.eq_dec l1 l2) as [->|N]; [destruct (Z.eq_dec x y) as [->|N]; [left; auto|]|]; right; eexists _, _;
        (split; [left; reflexivity|]; split; [left; reflexivity|]; split; [congruence|exact E]).
Qed.

(** full trees *)
Lemma pairs_nth : forall n l i, length l = (2 * n)%nat -> (i < n)%nat -> nth_error (pairs l) i = Some (nth (2 * i) l 0, nth (2 * i + 1) l 0).
Proof using.
  induction n as [|n IH]; intros l i L Hi; [lia|]. destruct l as [|a [|b t]]; simpl in L; try lia.
  cbn [pairs]. destruct i as [|i]; [reflexivity|]. cbn [nth_error]. rewrite IH by lia.
  replace (2 * S i)%nat with (S (S (2 * i))) by lia. reflexivity.
Qed.
Lemma pairs_length : forall n l, length l = (2 * n)%nat -> length (pairs l) = n.
Proof using.
  induction n as [|n IH]; intros l L; destruct l as [|a [|b t]]; simpl in L; try lia; [reflexivity|].
  cbn [pairs length]. rewrite IH by lia. reflexivity.
Qed.
Lemma level_up_nth H n l i : length l = (2 * n)%nat -> (i < n)%nat -> nth i (level_up H l) 0 = H (nth (2 * i) l 0) (nth (2 * i + 1) l 0).
Proof using.
  intros L Hi. unfold level_up. erewrite nth_error_nth; [reflexivity|]. rewrite nth_error_map, (pairs_nth n) by assumption. reflexivity.
Qed.
Lemma level_up_length H n l : length l = (2 * n)%nat -> length (level_up H l) = n.
Proof using. intro L. unfold level_up. rewrite map_length. apply pairs_length, L. Qed.

Lemma bits_val_range bits : Forall is_bit bits -> 0 <= bits_val bits < 2 ^ Z.of_nat (length bits).
Proof using.
  induction 1 as [|b bits Hb _ IH]; cbn [bits_val length]; [cbn; lia|]. rewrite Nat2Z.inj_succ, Z.pow_succ_r by lia. destruct Hb; lia.
Qed.
Lemma bits_index_lt bits : Forall is_bit bits -> (bits_index bits < 2 ^ length bits)%nat.
Proof using.
  intro Hb. pose proof (bits_val_range bits Hb). unfold bits_index. apply Nat2Z.inj_lt. rewrite Nat2Z.inj_pow. rewrite Z2Nat.id by lia. change (Z.of_nat 2) with 2. lia.
Qed.
Lemma bits_index_cons b bits : Forall is_bit bits -> is_bit b -> bits_index (b :: bits) = (Z.to_nat b + 2 * bits_index bits)%nat.
Proof using. intros Hb Hb0. pose proof (bits_val_range bits Hb). unfold bits_index. cbn [bits_val]. destruct Hb0; subst; lia. Qed.

Lemma tree_binding H : forall bits leaf sibs leaves, Forall is_bit bits -> length sibs = length bits -> length leaves = (2 ^ length bits)%nat ->
  path_fun H leaf bits sibs = tree_root H (length bits) leaves ->
  (leaf = nth (bits_index bits) leaves 0 /\ sibs = tree_path H (length bits) leaves (bits_index bits)) \/
  collision H (path_calls H leaf bits sibs) (tree_calls H (length bits) leaves).
Proof using.
  induction bits as [|b bits IH]; intros leaf sibs leaves Hb Ls Ll E.
  - left. destruct sibs; [|discriminate]. auto.
  - inversion Hb as [|? ? Hb0 Hb1]; subst. destruct sibs as [|x sibs]; [discriminate|]. injection Ls as Ls. cbn [length tree_root tree_calls tree_path path_calls] in *.
    rewrite Nat.pow_succ_r' in Ll. pose proof (bits_index_lt bits Hb1) as Bi. unfold path_fun in E. cbn [combine fold_left] in E.
    destruct (IH _ sibs (level_up H leaves) Hb1 Ls (level_up_length H _ _ Ll) E) as [[E1 E2]|C];
      [|right; eapply collision_incl; [| |exact C]; [apply incl_tl, incl_refl|apply incl_appr, incl_refl]].
    rewrite (level_up_nth H _ _ _ Ll Bi) in E1. rewrite (bits_index_cons b bits Hb1 Hb0).
    assert (IP : In (nth (2 * bits_index bits) leaves 0, nth (2 * bits_index bits + 1) leaves 0) (pairs leaves))
      by (eapply nth_error_In, pairs_nth; eassumption).
    set (a := nth (2 * bits_index bits) leaves 0) in *. set (c := nth (2 * bits_index bits + 1) leaves 0) in *.
    assert (D : ((Z.to_nat b + 2 * bits_index bits) / 2 = bits_index bits)%nat).
    { destruct Hb0; subst; rewrite Nat.add_comm, (Nat.mul_comm 2), Nat.div_add_l by lia; cbn [Z.to_nat]; [change (0 / 2)%nat with 0%nat|change (Pos.to_nat 1 / 2)%nat with 0%nat]; lia. }
    rewrite D, <- E2. unfold path_step in E1. cbn [fst snd] in E1.
    assert (K : forall y z, H y z = H a c -> (y, z) <> (a, c) -> collision H ((y, z) :: path_calls H (path_step H leaf (b, x)) bits sibs) (pairs leaves ++ tree_calls H (length bits) (level_up H leaves))).
    { intros y z Ey Ny. exists (y, z), (a, c). split; [left; reflexivity|]. split; [apply in_or_app; left; exact IP|]. auto. }
    destruct Hb0 as [-> | ->].
    + change (0 =? 0) with true in *. cbv iota in *. cbn [Z.to_nat Nat.add].
      destruct (Z.eq_dec leaf a) as [->|N]; [destruct (Z.eq_dec x c) as [->|N]|]; [left|right; apply K; [exact E1|congruence]..].
      split; [reflexivity|]. f_equal. unfold c. f_equal. rewrite Nat.even_mul. reflexivity.
    + change (1 =? 0) with false in *. cbv iota in *. change (Z.to_nat 1) with 1%nat.
      destruct (Z.eq_dec leaf c) as [->|N]; [destruct (Z.eq_dec x a) as [->|N]|]; [left|right; apply K; [exact E1|congruence]..].
      split; [unfold c; f_equal; lia|]. f_equal. unfold a. f_equal. rewrite Nat.even_add, Nat.even_mul. cbn [Nat.even eqb orb]. cbn. lia.
Qed.

Lemma tree_path_root H : forall bits leaves, Forall is_bit bits -> length leaves = (2 ^ length bits)%nat ->
  path_fun H (nth (bits_index bits) leaves 0) bits (tree_path H (length bits) leaves (bits_index bits)) = tree_root H (length bits) leaves.
Proof using.
  induction bits as [|b bits IH]; intros leaves Hb Ll; [reflexivity|].
  inversion Hb as [|? ? Hb0 Hb1]; subst. cbn [length tree_root tree_path] in *.
  rewrite Nat.pow_succ_r' in Ll. pose proof (bits_index_lt bits Hb1) as Bi. unfold path_fun. cbn [combine fold_left].
  rewrite (bits_index_cons b bits Hb1 Hb0).
  assert (D : ((Z.to_nat b + 2 * bits_index bits) / 2 = bits_index bits)%nat).
  { destruct Hb0; subst; rewrite Nat.add_comm, (Nat.mul_comm 2), Nat.div_add_l by lia; cbn [Z.to_nat]; [change (0 / 2)%nat with 0%nat|change (Pos.to_nat 1 / 2)%nat with 0%nat]; lia. }
  rewrite D. rewrite <- (IH (level_up H leaves) Hb1 (level_up_length H _ _ Ll)). unfold path_fun. f_equal.
  rewrite (level_up_nth H _ _ _ Ll Bi). unfold path_step. cbn [fst snd]. destruct Hb0 as [-> | ->].
  - change (0 =? 0) with true. cbv iota. cbn [Z.to_nat Nat.add]. f_equal. f_equal. rewrite Nat.even_mul. reflexivity.
  - change (1 =? 0) with false. cbv iota. change (Z.to_nat 1) with 1%nat. f_equal.
    + f_equal. rewrite Nat.even_add, Nat.even_mul. cbn [Nat.even eqb orb]. cbn. lia.
    + f_equal. lia.
Qed.

Lemma tree_path_length H : forall d leaves i, length (tree_path H d leaves i) = d.
Proof using. induction d as [|d IH]; intros; cbn [tree_path length]; auto. Qed.

End Generic.
