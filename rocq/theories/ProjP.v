(** Large multiples of a point, checked from a list of hints, and the multiples that vanish.  Used to determine the
    order of the JubJub generator; nothing here models code. *)
From Coq Require Import ZArith List Bool Arith Lia Znumtheory.
From Verif Require Import Base FieldM FieldP SpecCurve PrimeP EdwardsP.
Import ListNotations.
Open Scope Z_scope.

(** A step names the earlier points it adds (counted from the newest), the sum, and the quotients by the modulus that
    show the two coordinates of the sum to be right.  The curve has a = -1. *)
Inductive step : Type :=
| Dbl (i : nat) (x3 y3 k1 k2 k3 : Z)
| Add (i j : nat) (x3 y3 h1 h2 h3 h4 h5 h6 : Z).
Definition within (n x : Z) : bool := (0 <=? x) && (x <? n).
Definition check (n d : Z) (tbl : list (positive * (Z * Z))) (s : step) : option (positive * (Z * Z)) :=
  match s with
  | Dbl i x3 y3 k1 k2 k3 =>
      match nth_error tbl i with
      | Some (k, (x, y)) =>
          let w := (y - x) * (y + x) in
          let u := w - k1 * n in
          if within n x3 && within n y3 && (x3 * u - 2 * (x * y) =? k2 * n) && (2 * y3 - y3 * u - (w + 2 * (x * x)) =? k3 * n)
          then Some (Pos.add k k, (x3, y3)) else None
      | None => None
      end
  | Add i j x3 y3 h1 h2 h3 h4 h5 h6 =>
      match nth_error tbl i, nth_error tbl j with
      | Some (k, (x1, y1)), Some (l, (x2, y2)) =>
          let xx := x1 * x2 in
          let yy := y1 * y2 in
          let t := d * ((xx - h1 * n) * (yy - h2 * n) - h3 * n) - h4 * n in
          let xt := x3 * t in
          let yt := y3 * t in
          if within n x3 && within n y3 && (x3 + xt - ((x1 + y1) * (x2 + y2) - xx - yy) =? h5 * n) && (y3 - yt - (yy + xx) =? h6 * n)
          then Some (Pos.add k l, (x3, y3)) else None
      | _, _ => None
      end
  end.
Fixpoint run_steps (n d : Z) (ss : list step) (tbl : list (positive * (Z * Z))) : option (list (positive * (Z * Z))) :=
  match ss with
  | [] => Some tbl
  | s :: ss' => match check n d tbl s with Some e => run_steps n d ss' (e :: tbl) | None => None end
  end.

Section Proj.
Context {F : Field} (Hp : prime order) (H2 : 2 < order) (a d : Z).
Context (Hcc : complete_curve a d) (Ha : feqm a (-1)).
Local Infix "==" := feqm (at level 70).

Lemma order_zero : order == 0.
Proof using H2. unfold feqm. rewrite Z.mod_same, Z.mod_0_l by lia. reflexivity. Qed.
Lemma sum_is P Q x3 y3 : on_curve a d P -> on_curve a d Q -> within order x3 = true -> within order y3 = true ->
  x3 * (1 + d * fst P * fst Q * snd P * snd Q) == fst P * snd Q + fst Q * snd P ->
  y3 * (1 - d * fst P * fst Q * snd P * snd Q) == snd P * snd Q + fst P * fst Q -> ed_add a d P Q = (x3, y3).
Proof using Hp H2 Hcc Ha.
  intros HP HQ W1 W2 E1 E2. destruct (dens_nz' Hp H2 a d Hcc P Q HP HQ) as [N1 N2].
  unfold within in *. apply andb_true_iff in W1, W2. rewrite Z.leb_le, Z.ltb_lt in *.
  pose proof (add_on_curve Hp H2 a d Hcc P Q HP HQ) as [IP _].
  apply (point_eq H2); [exact IP|split; cbn [fst snd]; lia| |]; cbn [fst snd].
  - apply (cancel Hp H2 _ _ _ N1). rewrite (add_x Hp H2 a d Hcc) by assumption. symmetry. exact E1.
  - apply (cancel Hp H2 _ _ _ N2). rewrite (add_y Hp H2 a d Hcc) by assumption. rewrite E2.
    apply (lc1 H2 _ _ _ _ Ha (- (fst P * fst Q))). ring.
Qed.

Definition right_multiple (P : point) (e : positive * (Z * Z)) : Prop := ed_mul a d (Pos.to_nat (fst e)) P = snd e.
Lemma check_ok P tbl s e : on_curve a d P -> Forall (right_multiple P) tbl -> check order d tbl s = Some e -> right_multiple P e.
Proof using Hp H2 Hcc Ha.
  intros HP HT. pose proof order_zero as Z0. pose proof (Zmul_feqm (ord2 H2)) as PM. pose proof (Zadd_feqm (ord2 H2)) as PA. pose proof (Zsub_feqm (ord2 H2)) as PS.
  assert (HN : forall i k Q, nth_error tbl i = Some (k, Q) -> ed_mul a d (Pos.to_nat k) P = Q /\ on_curve a d Q).
  { intros i k Q E. apply nth_error_In in E. rewrite Forall_forall in HT. apply HT in E. unfold right_multiple in E. cbn [fst snd] in E.
    split; [exact E|]. rewrite <- E. apply (mul_on_curve Hp H2 a d Hcc), HP. }
  destruct s as [i x3 y3 k1 k2 k3|i j x3 y3 h1 h2 h3 h4 h5 h6]; cbn [check].
  - destruct (nth_error tbl i) as [[k [x y]]|] eqn:EI; [|discriminate]. destruct (HN _ _ _ EI) as [EM OC].
    destruct (_ && _) eqn:B; [|discriminate]. intros [= <-]. rewrite !andb_true_iff, !Z.eqb_eq in B. destruct B as (((W1 & W2) & E1) & E2).
    unfold right_multiple. cbn [fst snd]. rewrite Pos2Nat.inj_add, (mul_add Hp H2 a d Hcc), EM by exact HP.
    pose proof (on_curve_crv H2 a d _ OC) as EC. cbn [fst snd] in EC. unfold crv in EC. set (w := (y - x) * (y + x)) in *.
    assert (D : w - k1 * order == 1 + d * x * x * y * y).
    { apply (lc3 H2 _ _ _ _ _ _ _ _ EC Ha Z0 1 (- (x * x)) (- k1)). unfold w. ring. }
    apply (sum_is _ _ _ _ OC OC W1 W2); cbn [fst snd].
    + rewrite <- D. apply (lc1 H2 _ _ _ _ Z0 k2). lia.
    + transitivity (y3 * (2 - (w - k1 * order))).
      { apply (Zmul_feqm (ord2 H2)); [reflexivity|]. rewrite D. unfold feqm. f_equal. ring. }
      apply (lc1 H2 _ _ _ _ Z0 k3). rewrite Z.sub_0_r, <- E2. unfold w. ring.
  - destruct (nth_error tbl i) as [[k [x1 y1]]|] eqn:EI; [|discriminate]. destruct (HN _ _ _ EI) as [EM OC].
    destruct (nth_error tbl j) as [[l [x2 y2]]|] eqn:EJ; [|discriminate]. destruct (HN _ _ _ EJ) as [EM' OC'].
    destruct (_ && _) eqn:B; [|discriminate]. intros [= <-]. rewrite !andb_true_iff, !Z.eqb_eq in B. destruct B as (((W1 & W2) & E1) & E2).
    unfold right_multiple. cbn [fst snd]. rewrite Pos2Nat.inj_add, (mul_add Hp H2 a d Hcc), EM, EM' by exact HP.
    set (t := d * _ - h4 * order) in *.
    assert (D : t == d * x1 * x2 * y1 * y2).
    { apply (lc1 H2 _ _ _ _ Z0 (- d * (h1 * (y1 * y2) + h2 * (x1 * x2) - h1 * h2 * order + h3) - h4)). unfold t. ring. }
    apply (sum_is _ _ _ _ OC OC' W1 W2); cbn [fst snd]; rewrite <- D.
    + apply (lc1 H2 _ _ _ _ Z0 h5). rewrite Z.sub_0_r, <- E1. ring.
    + apply (lc1 H2 _ _ _ _ Z0 h6). rewrite Z.sub_0_r, <- E2. ring.
Qed.
Lemma run_steps_ok P : on_curve a d P -> forall ss tbl tbl', Forall (right_multiple P) tbl -> run_steps order d ss tbl = Some tbl' ->
  Forall (right_multiple P) tbl'.
Proof using Hp H2 Hcc Ha.
  intros HP ss. induction ss as [|s ss IH]; intros tbl tbl' HT E; cbn [run_steps] in E; [injection E as <-; exact HT|].
  destruct (check order d tbl s) as [e|] eqn:C; [|discriminate]. apply (IH (e :: tbl)); [|exact E].
  constructor; [|exact HT]. apply (check_ok P tbl s e HP HT C).
Qed.

(** ** multiples of a point that vanish *)
Lemma mul_zero k : ed_mul a d k ed_zero = ed_zero.
Proof using Hp H2 Hcc.
  induction k as [|k IH]; cbn [ed_mul]; [reflexivity|]. rewrite IH. apply (add_zero_r Hp H2 a d Hcc). apply zero_on_curve; assumption.
Qed.
Lemma mul_period P L q k : on_curve a d P -> ed_mul a d L P = ed_zero -> ed_mul a d (k + q * L) P = ed_mul a d k P.
Proof using Hp H2 Hcc.
  intros HP HL. rewrite (mul_add Hp H2 a d Hcc) by exact HP. rewrite (mul_mul Hp H2 a d Hcc) by exact HP. rewrite HL, mul_zero.
  apply (add_zero_r Hp H2 a d Hcc). apply (mul_on_curve Hp H2 a d Hcc), HP.
Qed.
Lemma mul_mod P L k : on_curve a d P -> (L <> 0)%nat -> ed_mul a d L P = ed_zero -> ed_mul a d k P = ed_mul a d (k mod L) P.
Proof using Hp H2 Hcc.
  intros HP L0 HL. rewrite (Nat.div_mod k L L0) at 1. rewrite Nat.add_comm, (Nat.mul_comm L). apply mul_period; assumption.
Qed.
(** multiples that vanish form an ideal *)
Lemma mul_gcd P : on_curve a d P -> forall k l, ed_mul a d k P = ed_zero -> ed_mul a d l P = ed_zero -> ed_mul a d (Nat.gcd k l) P = ed_zero.
Proof using Hp H2 Hcc.
  intros HP k. induction k as [k IH] using lt_wf_ind. intros l Hk Hl. destruct k as [|k]; [exact Hl|].
  rewrite <- Nat.gcd_mod by lia. apply IH; [apply Nat.mod_upper_bound; lia| |exact Hk]. rewrite <- mul_mod; [exact Hl|exact HP|lia|exact Hk].
Qed.
End Proj.
