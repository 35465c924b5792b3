(** Curve addition, scalar multiplication and Schnorr verification over a group whose addition checks its divisions.

    The additions of curves/edwards.rs leave their results unconstrained (C51, C53, C54).  [Group] is a trait
    (group.rs 7-106), so a client may implement it with the same formulas and [quotient] in place of
    [quotient_unsafe], inheriting the default doubling; [mul_scalar_expression] (group.rs 54-69) and
    [Schnorr::verify] (signature.rs 39-60) then run on it unchanged.  This file says exactly what those
    unchanged functions enforce over such a group. *)
From Coq Require Import ZArith List Bool Arith Lia Znumtheory Permutation Setoid Morphisms.
From Verif Require Import Base FieldM FieldP ExprM BuilderM GadgetsM CryptoM CurveM Spec SpecCrypto SpecCurve ExprP BitsP MonoP LocalP
  SoundP CmpP GadgetSoundP HonestP ExecP CoreP CompleteP CmpCompleteP GadgetCompleteP SatP ForgeP PropLib CryptoP MiscP EdwardsP
  CurveP Demo PropsCurve.
Import ListNotations.
Open Scope Z_scope.
Local Notation wv vals := (ev (input_witness vals)).

(** The formulas of curves/edwards.rs 33-54 with checked divisions. *)
Definition checked_add {F : Field} (C : edwards) (l r : ed_expr) : B ed_expr :=
  let '(x1, y1) := l in
  let '(x2, y2) := r in
  x1y2 <- product x1 y2 ;;
  x2y1 <- product y1 x2 ;;
  x1x2 <- product x1 x2 ;;
  x1x2y1y2 <- product x1y2 x2y1 ;;
  y1y2 <- product y1 y2 ;;
  x3 <- quotient (e_add x1y2 x2y1) (e_add (e_scale x1x2y1y2 (ed_d C)) e_one) ;;
  y3 <- quotient (e_sub y1y2 (e_scale x1x2 (ed_a C))) (e_add (e_scale x1x2y1y2 (fopp (ed_d C))) e_one) ;;
  bret (ed_new_unsafe x3 y3).
(** An implementation of the trait with that addition and the trait's own doubling (group.rs 40-45). *)
Definition checked_group {F : Field} (C : edwards) : group :=
  mkGroup ed_point ed_expr (ed_identity C) ed_of_point ed_evaluate (checked_add C) (fun p => checked_add C p p)
          snd (fun e => [fst e; snd e]) ed_from_components.

(** The integers of at most [max_bits] bits that reduce to a scalar: the scalar itself and, when it still fits, the
    scalar plus the order. *)
Definition reading {F : Field} (c n : Z) : Prop := 0 <= n < 2 ^ Z.of_nat max_bits /\ n mod order = c.

Section Mono.
Context {F : Field} (C : edwards).
Lemma mono_checked_add l r : mono (checked_add C l r).
Proof. unfold checked_add. destruct l, r. mono. Qed.
Lemma local_checked_add l r : local (checked_add C l r).
Proof. unfold checked_add. destruct l, r. local. Qed.
Lemma mono_mul_boolean' p b : mono (mul_boolean_expression (checked_group C) p b).
Proof. unfold mul_boolean_expression. mono. Qed.
Lemma local_mul_boolean' p b : local (mul_boolean_expression (checked_group C) p b).
Proof. unfold mul_boolean_expression. local. Qed.
End Mono.
Global Hint Resolve mono_checked_add mono_mul_boolean' : mono.
Global Hint Resolve local_checked_add local_mul_boolean' : local.
Section Mono2.
Context {F : Field} (C : edwards).
Lemma mono_mul_scalar' p e : mono (mul_scalar_expression (checked_group C) p e).
Proof. unfold mul_scalar_expression. cbn [add_expressions double_expression checked_group g_expr]. mono. Qed.
Lemma local_mul_scalar' p e : local (mul_scalar_expression (checked_group C) p e).
Proof. unfold mul_scalar_expression. cbn [add_expressions double_expression checked_group g_expr]. local. Qed.
End Mono2.
Global Hint Resolve mono_mul_scalar' : mono.
Global Hint Resolve local_mul_scalar' : local.

Section Safe.
Context {F : Field} (Hp : prime order) (H2 : 2 < order).
Let Hord : 2 <= order := prime_ge2 Hp.
Local Infix "==" := feqm (at level 70).
Ltac zcong :=
  pose proof (Zadd_feqm Hord); pose proof (Zmul_feqm Hord); pose proof (Zsub_feqm Hord); pose proof (Zopp_feqm Hord);
  rewrite ?(feqm_mod Hord), ?(fopp_eqm Hord), ?(fadd_eqm Hord), ?(fmul_eqm Hord);
  rewrite ?(feqm_mod Hord); apply feqm_of_eq; ring.
Lemma div_unique r n z : infield r -> z <> 0 -> infield z -> (r * z) mod order = n -> r = (n * zinv z) mod order.
Proof using Hp H2.
  intros Ir Nz Iz E. rewrite <- (Z.mod_small r order) by exact Ir. apply mod_mod_eq.
  pose proof (zinv_ok Hp H2 z) as Z1. assert (NZ : ~ z == 0). { intro Q. unfold feqm in Q. rewrite Z.mod_0_l, (Z.mod_small z) in Q by (unfold infield in *; lia). contradiction. }
  specialize (Z1 NZ). pose proof (Zmul_feqm Hord). rewrite <- E, (feqm_mod Hord).
  transitivity (r * (z * zinv z)); [rewrite Z1; apply feqm_of_eq; ring|apply feqm_of_eq; ring].
Qed.

Section Law.
Context (C : edwards).
Let a := ed_a C.
Let d := ed_d C.
Context (Hcc : complete_curve a d).

Lemma snd_checked_add w (Hw : wf_witness w) l r : on_curve a d (evp w l) -> on_curve a d (evp w r) ->
  sound w (checked_add C l r) (fun e => evp w e = ed_add a d (evp w l) (evp w r)).
Proof using Hp H2 Hcc.
  intros OL OR. destruct l as [x1 y1], r as [x2 y2]. unfold checked_add.
  sbind (apply (snd_product Hp w Hw)). intros e1 E1. sbind (apply (snd_product Hp w Hw)). intros e2 E2.
  sbind (apply (snd_product Hp w Hw)). intros e3 E3. sbind (apply (snd_product Hp w Hw)). intros e4 E4.
  sbind (apply (snd_product Hp w Hw)). intros e5 E5.
  sbind (apply (snd_quotient Hp w Hw)). intros x3 [N3 E6]. sbind (apply (snd_quotient Hp w Hw)). intros y3 [N4 E7].
  apply sound_ret. set (P := evp w (x1, y1)) in *. set (Q := evp w (x2, y2)) in *.
  assert (DX : ev w (e_add (e_scale e4 (ed_d C)) e_one) = den_x d P Q).
  { rewrite (ev_add_mod Hp w), (ev_scale_mod Hp w), (ev_one Hord) by apply Hw. rewrite E4, E1, E2. unfold den_x, d, P, Q, evp. cbn [fst snd]. apply mod_mod_eq. zcong. }
  assert (DY : ev w (e_add (e_scale e4 (fopp (ed_d C))) e_one) = den_y d P Q).
  { rewrite (ev_add_mod Hp w), (ev_scale_mod Hp w), (ev_one Hord) by apply Hw. rewrite E4, E1, E2. unfold den_y, d, P, Q, evp. cbn [fst snd]. apply mod_mod_eq. zcong. }
  rewrite DX in N3, E6. rewrite DY in N4, E7.
  apply div_unique in E6; [|apply ev_infield, Hord|exact N3|apply Z.mod_pos_bound; lia].
  apply div_unique in E7; [|apply ev_infield, Hord|exact N4|apply Z.mod_pos_bound; lia].
  unfold evp at 1, ed_new_unsafe, ed_add. cbn [fst snd]. rewrite E6, E7. f_equal.
  - rewrite (ev_add_mod Hp w), E1, E2. unfold P, Q, evp. cbn [fst snd]. apply mod_mod_eq. zcong.
  - rewrite (ev_sub_mod Hp w), (ev_scale_mod Hp w), E3, E5. unfold P, Q, evp, a. cbn [fst snd]. apply mod_mod_eq. zcong.
Qed.

Lemma cmpl_checked_add D Pd s l r P Q : on_curve a d P -> on_curve a d Q -> hasp s l P -> hasp s r Q ->
  comp D Pd s (checked_add C l r) (done Pd (fun e s' => hasp s' e (ed_add a d P Q))).
Proof using Hp H2 Hcc.
  intros HP HQ [Hx1 Hy1] [Hx2 Hy2]. destruct (dens_nz Hp H2 a d Hcc P Q HP HQ) as [NX NY].
  destruct l as [x1 y1], r as [x2 y2]. cbn [fst snd] in *. unfold checked_add.
  cbind (apply (cmpl_product Hp); [exact Hx1|exact Hy2]). intros e1 P1 s1 X1 G1 [-> He1]. carry.
  cbind (apply (cmpl_product Hp); [exact Hy1|exact Hx2]). intros e2 P2 s2 X2 G2 [-> He2]. carry.
  cbind (apply (cmpl_product Hp); [exact Hx1|exact Hx2]). intros e3 P3 s3 X3 G3 [-> He3]. carry.
  cbind (apply (cmpl_product Hp); [exact He1|exact He2]). intros e4 P4 s4 X4 G4 [-> He4]. carry.
  cbind (apply (cmpl_product Hp); [exact Hy1|exact Hy2]). intros e5 P5 s5 X5 G5 [-> He5]. carry.
  assert (DX : has s5 (e_add (e_scale e4 (ed_d C)) e_one) (den_x d P Q)).
  { eapply has_eq; [apply (has_add Hp); [apply (has_scale Hp); exact He4|apply (has_one Hp), G5]|]. unfold den_x, d. apply mod_mod_eq. zcong. }
  assert (DY : has s5 (e_add (e_scale e4 (fopp (ed_d C))) e_one) (den_y d P Q)).
  { eapply has_eq; [apply (has_add Hp); [apply (has_scale Hp); exact He4|apply (has_one Hp), G5]|]. unfold den_y, d. apply mod_mod_eq. zcong. }
  assert (NZ : forall z, infield z -> ~ z == 0 -> z <> 0) by (intros z _ Hz ->; apply Hz; reflexivity).
  pose proof (has_infield Hp _ _ _ DX) as IX. pose proof (has_infield Hp _ _ _ DY) as IY.
  cbind (apply (cmpl_quotient Hp H2); [apply (has_add Hp); [exact He1|exact He2]|exact DX|apply NZ; assumption]).
  intros x3 P6 s6 X6 G6 [-> Hx3]. carry.
  cbind (apply (cmpl_quotient Hp H2); [apply (has_sub Hp); [exact He5|apply (has_scale Hp); exact He3]|exact DY|apply NZ; assumption]).
  intros y3 P7 s7 X7 G7 [-> Hy3]. carry. rewrite (finvv_zinv Hp H2) in Hx3, Hy3 by assumption.
  apply comp_ret. split; [reflexivity|]. split; cbn [fst snd ed_new_unsafe].
  - eapply has_eq; [exact Hx3|]. unfold ed_add. cbn [fst]. apply mod_mod_eq. zcong.
  - eapply has_eq; [exact Hy3|]. unfold ed_add. cbn [snd]. apply mod_mod_eq. unfold a. zcong.
Qed.

Lemma cmpl_mul_boolean' D Pd s p P b c : hasp s p P -> has s b c -> is_bit c ->
  comp D Pd s (mul_boolean_expression (checked_group C) p b) (done Pd (fun e s' => hasp s' e (if c =? 1 then P else ed_zero))).
Proof using Hp H2. exact (cmpl_mul_boolean Hp H2 C D Pd s p P b c). Qed.

Lemma snd_mul_boolean w (Hw : wf_witness w) p b : is_bit (ev w b) ->
  sound w (mul_boolean_expression (checked_group C) p b) (fun e => evp w e = if ev w b =? 1 then evp w p else ed_zero).
Proof using Hp H2.
  intro Bb. unfold mul_boolean_expression.
  eapply sound_bind with (Q := fun id => id = (e_const 0, e_const 1)); [|intro; mono|].
  { apply sound_lift. intros id E. pose proof (identity_expression_ok Hp C) as E'. change (identity_expression (checked_group C)) with (identity_expression (edwards_group C)) in E.
    rewrite E' in E. inversion E. reflexivity. }
  cbv beta. intros id ->. cbn [checked_group to_components enumerate length seq combine bmap fst snd nth_error].
  eapply sound_bind with (Q := fun l => exists ex ey, l = [ex; ey] /\ evp w (ex, ey) = if ev w b =? 1 then evp w p else ed_zero); [|intro; mono|].
  - eapply sound_bind with (Q := fun e => ev w e = if ev w b =? 1 then ev w (fst p) else ev w (e_const 0)); [|intro; mono|].
    { eapply sound_bind with (Q := fun c => c = e_const 0); [apply sound_lift; intros c E; inversion E; reflexivity|intro; mono|]. cbv beta. intros c ->.
      apply (snd_selection Hp w Hw); exact Bb. }
    cbv beta. intros ex Ex.
    eapply sound_bind with (Q := fun l => exists ey, l = [ey] /\ ev w ey = if ev w b =? 1 then ev w (snd p) else ev w (e_const 1)); [|intro; mono|].
    { eapply sound_bind with (Q := fun e => ev w e = if ev w b =? 1 then ev w (snd p) else ev w (e_const 1)); [|intro; mono|].
      { eapply sound_bind with (Q := fun c => c = e_const 1); [apply sound_lift; intros c E; inversion E; reflexivity|intro; mono|]. cbv beta. intros c ->.
        apply (snd_selection Hp w Hw); exact Bb. }
      cbv beta. intros ey Ey. eapply sound_bind with (Q := fun l => l = []); [apply sound_ret; reflexivity|intro; mono|]. cbv beta. intros l ->.
      apply sound_ret. eauto. }
    cbv beta. intros l (ey & -> & Ey). apply sound_ret. exists ex, ey. split; [reflexivity|].
    unfold evp, ed_zero. cbn [fst snd]. rewrite Ex, Ey. destruct (ev w b =? 1); [reflexivity|].
    rewrite !(ev_const Hord) by (try apply Hw; unfold infield; lia). reflexivity.
  - cbv beta. intros l (ex & ey & -> & E). apply sound_lift. intros e Ee. inversion Ee. exact E.
Qed.

(** one more bit of the scalar *)
Lemma loop_step b bl S0 C0 : is_bit b -> Forall is_bit bl -> on_curve a d S0 -> on_curve a d C0 ->
  ed_add a d (ed_add a d S0 (if b =? 1 then C0 else ed_zero)) (ed_mul a d (Z.to_nat (bits_val bl)) (ed_add a d C0 C0)) =
  ed_add a d S0 (ed_mul a d (Z.to_nat (bits_val (b :: bl))) C0).
Proof using Hp H2 Hcc.
  intros B1 Bb OS OC.
  assert (O1 : on_curve a d (if b =? 1 then C0 else ed_zero)) by (destruct (b =? 1); [exact OC|apply (zero_on_curve H2)]).
  pose proof (add_on_curve Hp H2 a d Hcc C0 C0 OC OC) as O2.
  rewrite (add_assoc Hp H2 a d Hcc) by (try assumption; apply (mul_on_curve Hp H2 a d Hcc); exact O2). f_equal.
  pose proof (bits_val_bound bl Bb) as V.
  replace (ed_add a d C0 C0) with (ed_mul a d 2 C0) by (cbn [ed_mul]; rewrite (add_zero_r Hp H2 a d Hcc) by exact OC; reflexivity).
  rewrite <- (mul_mul Hp H2 a d Hcc) by exact OC.
  replace (if b =? 1 then C0 else ed_zero) with (ed_mul a d (Z.to_nat b) C0).
  2:{ destruct B1 as [-> | ->]; cbn [Z.eqb Pos.eqb]; [reflexivity|]. apply (mul_1 Hp H2 a d Hcc), OC. }
  rewrite <- (mul_add Hp H2 a d Hcc) by exact OC. f_equal. cbn [bits_val]. destruct B1 as [-> | ->]; lia.
Qed.

Definition mloop (bits : list expr) (st : ed_expr * ed_expr) : B (ed_expr * ed_expr) :=
  bfold (fun st bit =>
          bp <- mul_boolean_expression (checked_group C) (snd st) bit ;;
          sum <- checked_add C (fst st) bp ;;
          cur <- checked_add C (snd st) (snd st) ;;
          bret (sum, cur)) bits st.

Lemma snd_mloop w (Hw : wf_witness w) bits : Forall (fun e => is_bit (ev w e)) bits -> forall sum cur,
  on_curve a d (evp w sum) -> on_curve a d (evp w cur) ->
  sound w (mloop bits (sum, cur)) (fun st => evp w (fst st) =
    ed_add a d (evp w sum) (ed_mul a d (Z.to_nat (bits_val (map (ev w) bits))) (evp w cur))).
Proof using Hp H2 Hcc.
  unfold mloop. induction bits as [|e bits IH]; intros Bb sum cur OS OC.
  - cbn [bfold map bits_val]. apply sound_ret. cbn [fst Z.to_nat ed_mul]. rewrite (add_zero_r Hp H2 a d Hcc) by exact OS. reflexivity.
  - apply Forall_cons_iff in Bb. destruct Bb as [B1 Bb]. cbn [bfold map].
    assert (O1 : on_curve a d (if ev w e =? 1 then evp w cur else ed_zero)) by (destruct (ev w e =? 1); [exact OC|apply (zero_on_curve H2)]).
    eapply sound_bind with (Q := fun st => evp w (fst st) = ed_add a d (evp w sum) (if ev w e =? 1 then evp w cur else ed_zero) /\
      evp w (snd st) = ed_add a d (evp w cur) (evp w cur)); [|intro; mono|].
    { cbn [fst snd]. sbind (apply (snd_mul_boolean w Hw); exact B1). intros bp Ebp.
      sbind (apply (snd_checked_add w Hw); [exact OS|rewrite Ebp; exact O1]). intros sm Esm.
      sbind (apply (snd_checked_add w Hw); exact OC). intros cu Ecu. apply sound_ret. cbn [fst snd]. rewrite Esm, Ecu, Ebp. split; reflexivity. }
    cbv beta. intros [sm cu] [Es Ec]. cbn [fst snd] in Es, Ec.
    eapply sound_weaken; [apply IH; [exact Bb|rewrite Es; apply (add_on_curve Hp H2 a d Hcc); assumption|rewrite Ec; apply (add_on_curve Hp H2 a d Hcc); assumption]|].
    cbv beta. intros st E. rewrite E, Es, Ec. apply loop_step; try assumption. apply Forall_map. exact Bb.
Qed.

Lemma cmpl_mloop D Pd bits bl : forall s sum cur S0 C0, hasl s bits bl -> Forall is_bit bl ->
  hasp s sum S0 -> hasp s cur C0 -> on_curve a d S0 -> on_curve a d C0 ->
  comp D Pd s (mloop bits (sum, cur))
    (done Pd (fun st s' => hasp s' (fst st) (ed_add a d S0 (ed_mul a d (Z.to_nat (bits_val bl)) C0)))).
Proof using Hp H2 Hcc.
  unfold mloop. revert bl. induction bits as [|e bits IH]; intros bl s sum cur S0 C0 Hb Bb Hs Hc OS OC; apply Forall2_length in Hb as Lb; destruct bl as [|b bl]; try discriminate.
  - cbn [bfold bits_val]. apply comp_ret. split; [reflexivity|]. cbn [fst Z.to_nat ed_mul].
    rewrite (add_zero_r Hp H2 a d Hcc) by exact OS. exact Hs.
  - clear Lb. apply Forall2_cons_inv in Hb. destruct Hb as [He Hb]. apply Forall_cons_iff in Bb. destruct Bb as [B1 Bb].
    assert (O1 : on_curve a d (if b =? 1 then C0 else ed_zero)) by (destruct (b =? 1); [exact OC|apply (zero_on_curve H2)]).
    cbn [bfold]. eapply comp_bind with (Q := done Pd (fun st s' => hasp s' (fst st) (ed_add a d S0 (if b =? 1 then C0 else ed_zero)) /\ hasp s' (snd st) (ed_add a d C0 C0))).
    { cbn [fst snd]. cbind (apply cmpl_mul_boolean'; [exact Hc|exact He|exact B1]). intros bp P1 s1 X1 G1 [-> Hbp].
      apply (hasp_ext _ _ _ _ X1) in Hs, Hc.
      cbind (apply cmpl_checked_add; [exact OS|exact O1|exact Hs|exact Hbp]). intros sm P2 s2 X2 G2 [-> Hsm].
      apply (hasp_ext _ _ _ _ X2) in Hc.
      cbind (apply cmpl_checked_add; [exact OC|exact OC|exact Hc|exact Hc]). intros cu P3 s3 X3 G3 [-> Hcu]. apply (hasp_ext _ _ _ _ X3) in Hsm.
      apply comp_ret. split; [reflexivity|]. split; assumption. }
    cbv beta. intros [sm cu] P1 s1 X1 G1 [-> [Hsm Hcu]]. cbn [fst snd] in Hsm, Hcu.
    rewrite <- loop_step by assumption.
    apply IH; [eapply hasl_ext; eauto|exact Bb|exact Hsm|exact Hcu|apply (add_on_curve Hp H2 a d Hcc); assumption|apply (add_on_curve Hp H2 a d Hcc); assumption].
Qed.

Lemma snd_mul_scalar' w (Hw : wf_witness w) p e : on_curve a d (evp w p) ->
  sound w (mul_scalar_expression (checked_group C) p e) (fun r => exists n, reading (ev w e) n /\
    evp w r = ed_mul a d (Z.to_nat n) (evp w p)).
Proof using Hp H2 Hcc.
  intros OP. unfold mul_scalar_expression. cbn [add_expressions double_expression checked_group g_expr].
  sbind (apply (snd_split_amb Hp w Hw)). intros bits (Ln & Bb & V).
  eapply sound_bind with (Q := fun id => id = (e_const 0, e_const 1)); [|intro; mono|].
  { apply sound_lift. intros id E. pose proof (identity_expression_ok Hp C) as E'. 
    change (identity_expression (edwards_group C) = Ok id) in E. rewrite E' in E. inversion E. reflexivity. }
  cbv beta. intros id ->.
  assert (E0 : evp w (e_const 0, e_const 1) = ed_zero).
  { unfold evp, ed_zero. cbn [fst snd]. rewrite !(ev_const Hord) by (try apply Hw; unfold infield; lia). reflexivity. }
  eapply sound_bind; [apply (snd_mloop w Hw bits Bb (e_const 0, e_const 1) p); [rewrite E0; apply (zero_on_curve H2)|exact OP]|intro; mono|].
  cbv beta. intros st E. apply sound_ret. exists (bin_val w bits). split.
  - split.
    + pose proof (bin_val_bound w bits Bb) as B. rewrite Ln in B. exact B.
    + pose proof (ev_infield Hord w e) as I. unfold infield in I. destruct V as [-> | ->].
      * apply Z.mod_small. exact I.
      * rewrite <- (Z.mul_1_l order) at 1. rewrite Z.mod_add by lia. apply Z.mod_small. exact I.
  - rewrite E, E0. apply (add_zero_l Hp H2 a d Hcc), (mul_on_curve Hp H2 a d Hcc), OP.
Qed.

Lemma cmpl_mul_scalar' D Pd s p P e c : on_curve a d P -> hasp s p P -> has s e c ->
  comp D Pd s (mul_scalar_expression (checked_group C) p e) (done Pd (fun r s' => hasp s' r (ed_mul a d (Z.to_nat c) P))).
Proof using Hp H2 Hcc.
  intros HP Hh He. unfold mul_scalar_expression. pose proof (has_infield Hp _ _ _ He) as Ic.
  cbind (apply (cmpl_split_amb Hp); exact He). intros bits P1 s1 X1 G1 [-> Hb]. apply (hasp_ext _ _ _ _ X1) in Hh.
  eapply comp_liftb; [exact (identity_expression_ok Hp C)|].
  cbind (eapply (cmpl_mloop D Pd bits _ s1 (e_const 0, e_const 1) p ed_zero P Hb);
    [apply zbl_bits|apply (hasp_zero Hp H2), G1|exact Hh|apply (zero_on_curve H2)|exact HP]).
  intros [sm cu] P2 s2 X2 G2 [-> Hsm]. apply comp_ret. split; [reflexivity|]. cbn [fst] in *.
  rewrite (add_zero_l Hp H2 a d Hcc) in Hsm by (apply (mul_on_curve Hp H2 a d Hcc), HP).
  rewrite zbl_val in Hsm by (pose proof (max_bits_upper Hord); unfold infield in *; lia). exact Hsm.
Qed.

Lemma local_mloop bits st : local (mloop bits st).
Proof using. unfold mloop. local. Qed.

Lemma fs_mul_scalar' s p P e c n : on_curve a d P -> hasp s p P -> has s e c -> reading c n ->
  csat s (mul_scalar_expression (checked_group C) p e) (fun r s' => hasp s' r (ed_mul a d (Z.to_nat n) P)).
Proof using Hp H2 Hcc.
  intros HP Hh He [Rn Rc]. unfold mul_scalar_expression.
  assert (V : bits_val (zbl n max_bits) = n) by (apply zbl_val; exact Rn).
  fbind (eapply (fs_split_amb Hp s e c (zbl n max_bits)); [exact He|apply zbl_bits|rewrite V; exact Rc|apply zbl_length]).
  intros bits s1 X1 G1 Hb. apply (hasp_ext _ _ _ _ X1) in Hh.
  eapply csat_liftb; [exact (identity_expression_ok Hp C)|].
  fbind (apply csat_comp; [apply local_mloop|]; eapply (cmpl_mloop _ _ bits _ s1 (e_const 0, e_const 1) p ed_zero P Hb);
    [apply zbl_bits|apply (hasp_zero Hp H2), G1|exact Hh|apply (zero_on_curve H2)|exact HP]).
  intros [sm cu] s2 X2 G2 Hsm. apply csat_ret. cbn [fst] in *.
  rewrite (add_zero_l Hp H2 a d Hcc), V in Hsm by (apply (mul_on_curve Hp H2 a d Hcc), HP). exact Hsm.
Qed.

Section Schnorr.
Context (g : point) (m : compression) (H : Z -> Z -> Z).
Let CG := mkCyclic (checked_group C) (Ok g).

Lemma snd_schnorr' w (Hw : wf_witness w) sg msg pk : computes2 m H -> on_curve a d g -> on_curve a d (evp w pk) ->
  sound w (schnorr_verify CG sg msg pk m) (fun _ => exists n k, reading (ev w (fst sg)) n /\ reading (ev w (snd sg)) k /\
    ev w (snd sg) = H (snd (ed_add a d (ed_mul a d (Z.to_nat n) g) (ed_mul a d (Z.to_nat k) (evp w pk)))) (ev w msg)).
Proof using Hp H2 Hcc.
  intros Hm Og OP. unfold schnorr_verify, CG. cbn [cg_group checked_group add_expressions compressed g_expr]. pose proof Hm as [Mm _].
  eapply sound_bind with (Q := fun e => e = ed_of_point g); [apply sound_lift; intros e E; inversion E; reflexivity|
    intro; repeat first [apply Mm|apply mono_mul_scalar'|apply mono_checked_add|mono_step]|]. cbv beta. intros ge ->.
  assert (E0 : evp w (ed_of_point g) = g).
  { destruct Og as [[I1 I2] _]. unfold evp, ed_of_point. cbn [fst snd]. rewrite !(ev_const Hord) by (try apply Hw; assumption). destruct g; reflexivity. }
  eapply sound_bind; [apply (snd_mul_scalar' w Hw); rewrite E0; exact Og|intro; repeat first [apply Mm|apply mono_mul_scalar'|apply mono_checked_add|mono_step]|].
  cbv beta. intros gs (n & Rn & En). rewrite E0 in En.
  eapply sound_bind; [apply (snd_mul_scalar' w Hw); exact OP|intro; repeat first [apply Mm|apply mono_mul_scalar'|apply mono_checked_add|mono_step]|].
  cbv beta. intros ye (k & Rk & Ek).
  eapply sound_bind; [apply (snd_checked_add w Hw); [rewrite En|rewrite Ek]; apply (mul_on_curve Hp H2 a d Hcc); assumption|
    intro; repeat first [apply Mm|apply mono_mul_scalar'|apply mono_checked_add|mono_step]|].
  cbv beta. intros gy Eg. rewrite En, Ek in Eg.
  eapply sound_bind; [apply (computes2_snd m H); [exact Hw|exact Hm]|intro; mono|]. cbv beta. intros h Eh.
  eapply sound_weaken; [apply (snd_assert_equal Hp w Hw)|]. cbv beta. intros _ E. exists n, k.
  split; [exact Rn|]. split; [exact Rk|]. rewrite <- E, Eh, <- Eg. reflexivity.
Qed.

Lemma fs_schnorr' s sg msg pk sv ev_ mv PK n k : completes2 m H -> (forall x y, local (m x y)) -> on_curve a d g -> on_curve a d PK ->
  has s (fst sg) sv -> has s (snd sg) ev_ -> has s msg mv -> hasp s pk PK -> reading sv n -> reading ev_ k ->
  ev_ = H (snd (ed_add a d (ed_mul a d (Z.to_nat n) g) (ed_mul a d (Z.to_nat k) PK))) mv ->
  csat s (schnorr_verify CG sg msg pk m) (fun _ _ => True).
Proof using Hp H2 Hcc.
  intros Hm Hl Og OP Hs He Hmsg Hpk Rn Rk E. apply csat_good. intro G. unfold schnorr_verify.
  eapply csat_liftb; [reflexivity|]. cbn [cg_group CG g_of_elem checked_group add_expressions compressed].
  fbind (apply (fs_mul_scalar' s _ g _ sv n); [exact Og|apply (hasp_const Hp); [exact G|apply Og]|exact Hs|exact Rn]).
  intros gs s1 X1 G1 Hgs. carry. apply (hasp_ext _ _ _ _ X1) in Hpk.
  fbind (eapply (fs_mul_scalar' s1 _ PK _ _ k); [exact OP|exact Hpk|exact He|exact Rk]).
  intros ye s2 X2 G2 Hye. carry. apply (hasp_ext _ _ _ _ X2) in Hgs.
  fbind (apply csat_comp; [apply local_checked_add|apply cmpl_checked_add; [apply (mul_on_curve Hp H2 a d Hcc), Og|apply (mul_on_curve Hp H2 a d Hcc), OP|exact Hgs|exact Hye]]).
  intros gy s3 X3 G3 [_ Hgy]. carry.
  fbind (apply csat_comp; [apply Hl|apply Hm; [exact Hgy|exact Hmsg]]). intros h s4 X4 G4 Hh. carry. rewrite <- E in Hh.
  fweaken (eapply (fs_assert_equal Hp); [exact Hh|exact He]). auto.
Qed.

Lemma cmpl_schnorr' D Pd s sg msg pk sv ev_ mv PK : completes2 m H -> on_curve a d g -> on_curve a d PK ->
  has s (fst sg) sv -> has s (snd sg) ev_ -> has s msg mv -> hasp s pk PK ->
  ev_ = H (snd (ed_add a d (ed_mul a d (Z.to_nat sv) g) (ed_mul a d (Z.to_nat ev_) PK))) mv ->
  comp D Pd s (schnorr_verify CG sg msg pk m) (done Pd (fun _ _ => True)).
Proof using Hp H2 Hcc.
  intros Hm Og OP Hs He Hmsg Hpk E. apply comp_hon. intros G _ _. unfold schnorr_verify.
  eapply comp_liftb; [reflexivity|]. cbn [cg_group CG g_of_elem checked_group add_expressions compressed].
  cbind (apply (cmpl_mul_scalar' D Pd s _ g); [exact Og|apply (hasp_const Hp); [exact G|apply Og]|exact Hs]).
  intros gs P1 s1 X1 G1 [-> Hgs]. carry. apply (hasp_ext _ _ _ _ X1) in Hpk.
  cbind (apply (cmpl_mul_scalar' D Pd s1 _ PK); [exact OP|exact Hpk|exact He]).
  intros ye P2 s2 X2 G2 [-> Hye]. carry. apply (hasp_ext _ _ _ _ X2) in Hgs.
  cbind (apply cmpl_checked_add; [apply (mul_on_curve Hp H2 a d Hcc); exact Og|apply (mul_on_curve Hp H2 a d Hcc); exact OP|exact Hgs|exact Hye]).
  intros gy P3 s3 X3 G3 [-> [_ Hgy]]. carry.
  cbind (apply Hm; [exact Hgy|exact Hmsg]). intros h P4 s4 X4 G4 [-> Hh]. carry. rewrite <- E in Hh.
  cweaken (eapply (cmpl_assert_equal Hp); [exact Hh|exact He]). intros ? P5 s5 _ _ [-> ->]. split; auto.
Qed.
End Schnorr.
End Law.
End Safe.

(** ** C112 *)
(** Over the checked group the sum and the double of points of the curve are the sum and the double, in every
    satisfying assignment; honest execution computes them. *)
Theorem C112_addition : forall (F : Field), prime order -> 2 < order -> forall C, complete_curve (ed_a C) (ed_d C) ->
  (forall l r, sound_call (add_expressions (checked_group C) l r) (fun w e =>
     on_curve (ed_a C) (ed_d C) (evp w l) -> on_curve (ed_a C) (ed_d C) (evp w r) ->
     evp w e = ed_add (ed_a C) (ed_d C) (evp w l) (evp w r))) /\
  (forall p, sound_call (double_expression (checked_group C) p) (fun w e =>
     on_curve (ed_a C) (ed_d C) (evp w p) -> evp w e = ed_add (ed_a C) (ed_d C) (evp w p) (evp w p))) /\
  (forall vals l r, good_inputs vals -> on_inputs_p vals l -> on_inputs_p vals r ->
     on_curve (ed_a C) (ed_d C) (evp (input_witness vals) l) -> on_curve (ed_a C) (ed_d C) (evp (input_witness vals) r) ->
     runs vals (add_expressions (checked_group C) l r) (fun e v =>
       ed_evaluate v e = Ok (ed_add (ed_a C) (ed_d C) (evp (input_witness vals) l) (evp (input_witness vals) r)))).
Proof.
  intros F Hp H2 C Hcc.
  assert (A : forall l r, sound_call (checked_add C l r) (fun w e =>
     on_curve (ed_a C) (ed_d C) (evp w l) -> on_curve (ed_a C) (ed_d C) (evp w r) ->
     evp w e = ed_add (ed_a C) (ed_d C) (evp w l) (evp w r))).
  { intros l r b e b' w E Hw S OL OR. exact (snd_checked_add Hp H2 C Hcc w Hw l r OL OR b e b' E S). }
  split; [exact A|]. split; [intros p b e b' w E Hw S O; exact (A p p b e b' w E Hw S O O)|].
  intros vals l r Hv Hl Hr HP HQ. apply (to_runs_p Hp); [exact Hv|].
  apply (cmpl_checked_add Hp H2); try assumption; apply hasp_input; assumption.
Qed.
Print Assumptions C112_addition.

(** The library's scalar multiplication over the checked group.  In every satisfying assignment the result is the
    n-fold sum for a reading [n] of the scalar, so at most two points are possible; every reading can be used by a
    prover; honest execution uses the scalar itself; and from [2^max_bits - order] on a scalar has one reading only. *)
Theorem C112_scalar : forall (F : Field), prime order -> 2 < order -> forall C, complete_curve (ed_a C) (ed_d C) -> forall p e,
  sound_call (mul_scalar_expression (checked_group C) p e) (fun w r => on_curve (ed_a C) (ed_d C) (evp w p) ->
    exists n, reading (ev w e) n /\ evp w r = ed_mul (ed_a C) (ed_d C) (Z.to_nat n) (evp w p)) /\
  (forall c n P, on_curve (ed_a C) (ed_d C) P -> reading c n ->
    sat_call (mul_scalar_expression (checked_group C) p e) (fun k w => below_p k p /\ below k e /\ evp w p = P /\ ev w e = c)
      (fun w r => evp w p = P /\ ev w e = c /\ evp w r = ed_mul (ed_a C) (ed_d C) (Z.to_nat n) P)) /\
  (forall vals, good_inputs vals -> on_inputs_p vals p -> on_inputs vals e ->
    on_curve (ed_a C) (ed_d C) (evp (input_witness vals) p) ->
    runs vals (mul_scalar_expression (checked_group C) p e) (fun r v =>
      ed_evaluate v r = Ok (ed_mul (ed_a C) (ed_d C) (Z.to_nat (wv vals e)) (evp (input_witness vals) p)))).
Proof.
  intros F Hp H2 C Hcc p e. split; [|split].
  - intros b r b' w E Hw S O. exact (snd_mul_scalar' Hp H2 C Hcc w Hw p e O b r b' E S).
  - intros c n P OP Rn. apply to_sat_call. intros s G (Bp & Be & Ep & Ee).
    assert (Hh : hasp s p P) by (rewrite <- Ep; apply hasp_below, Bp).
    assert (Hc : has s e c) by (rewrite <- Ee; apply below_has, Be).
    eapply csat_weaken; [apply (fs_mul_scalar' Hp H2 C Hcc s p P e c n OP Hh Hc Rn)|].
    cbv beta. intros r s' X _ Hr. split; [apply hasp_ev; eapply hasp_ext; eauto|]. split; [|apply hasp_ev, Hr].
    exact (proj2 (has_ext _ _ _ _ X Hc)).
  - intros vals Hv Hl He HP. apply (to_runs_p Hp); [exact Hv|].
    apply (cmpl_mul_scalar' Hp H2 C Hcc); [exact HP|apply hasp_input; assumption|apply has_input; assumption].
Qed.
Print Assumptions C112_scalar.

Theorem C112_readings : forall (F : Field), prime order -> forall c n, 0 <= c < order ->
  (reading c n <-> n = c \/ (n = c + order /\ c + order < 2 ^ Z.of_nat max_bits)) /\
  (2 ^ Z.of_nat max_bits <= c + order -> reading c n -> n = c).
Proof.
  intros F Hp c n Hc. pose proof (prime_ge2 Hp) as Hord. pose proof (max_bits_upper Hord) as U. pose proof (pow2_double Hord) as D.
  assert (E : reading c n <-> n = c \/ (n = c + order /\ c + order < 2 ^ Z.of_nat max_bits)).
  { unfold reading. split.
    - intros [B M]. assert (NO : order <> 0) by lia. pose proof (Z.div_mod n order NO) as Q. rewrite M in Q.
      assert (0 <= n / order < 2). { split; [apply Z.div_pos; lia|apply Z.div_lt_upper_bound; lia]. }
      assert (n / order = 0 \/ n / order = 1) as [Z0|Z1] by lia; [left|right]; nia.
    - intros [-> | [-> L]].
      + split; [lia|apply Z.mod_small; exact Hc].
      + split; [lia|]. rewrite <- (Z.mul_1_l order) at 1. rewrite Z.mod_add by lia. apply Z.mod_small. exact Hc. }
  split; [exact E|]. intros L R. apply E in R. destruct R as [R|[_ R]]; [exact R|lia].
Qed.
Print Assumptions C112_readings.

(** The library's Schnorr verification over the checked group: the Schnorr equation holds for a reading of each scalar
    in every satisfying assignment, every such triple is satisfiable, and signatures satisfying the equation itself
    are accepted by honest execution. *)
Theorem C112_signature : forall (F : Field), prime order -> 2 < order -> forall C g m H, complete_curve (ed_a C) (ed_d C) ->
  on_curve (ed_a C) (ed_d C) g -> computes2 m H -> completes2 m H -> (forall x y, local (m x y)) -> forall s e msg pk,
  sound_call (schnorr_verify (mkCyclic (checked_group C) (Ok g)) (s, e) msg pk m) (fun w _ =>
    on_curve (ed_a C) (ed_d C) (evp w pk) -> exists n k, reading (ev w s) n /\ reading (ev w e) k /\
    ev w e = H (snd (ed_add (ed_a C) (ed_d C) (ed_mul (ed_a C) (ed_d C) (Z.to_nat n) g)
                                              (ed_mul (ed_a C) (ed_d C) (Z.to_nat k) (evp w pk)))) (ev w msg)) /\
  sat_call (schnorr_verify (mkCyclic (checked_group C) (Ok g)) (s, e) msg pk m) (fun i w =>
    below i s /\ below i e /\ below i msg /\ below_p i pk /\ on_curve (ed_a C) (ed_d C) (evp w pk) /\
    exists n k, reading (ev w s) n /\ reading (ev w e) k /\
    ev w e = H (snd (ed_add (ed_a C) (ed_d C) (ed_mul (ed_a C) (ed_d C) (Z.to_nat n) g)
                                              (ed_mul (ed_a C) (ed_d C) (Z.to_nat k) (evp w pk)))) (ev w msg)) (fun _ _ => True) /\
  (forall vals, good_inputs vals -> on_inputs vals s -> on_inputs vals e -> on_inputs vals msg -> on_inputs_p vals pk ->
    on_curve (ed_a C) (ed_d C) (evp (input_witness vals) pk) ->
    schnorr_holds (ed_a C) (ed_d C) H g (evp (input_witness vals) pk) (wv vals s) (wv vals e) (wv vals msg) ->
    runs vals (schnorr_verify (mkCyclic (checked_group C) (Ok g)) (s, e) msg pk m) (fun _ _ => True)).
Proof.
  intros F Hp H2 C g m H Hcc Og Hm Hc Hl s e msg pk. split; [|split].
  - intros b r b' w E Hw S O. exact (snd_schnorr' Hp H2 C Hcc g m H w Hw (s, e) msg pk Hm Og O b r b' E S).
  - apply to_sat_call. intros st G (Bs & Be & Bm & Bp & OP & n & k & Rn & Rk & E).
    eapply (fs_schnorr' Hp H2 C Hcc g m H st (s, e) msg pk _ _ (ev (wt st) msg) _ n k Hc Hl Og OP); cbn [fst snd];
      [apply below_has, Bs|apply below_has, Be|apply below_has, Bm|apply hasp_below, Bp|exact Rn|exact Rk|exact E].
  - intros vals Hv Hs He Hmsg Hpk OP E. apply (to_runs0 Hp); [exact Hv|].
    eapply (cmpl_schnorr' Hp H2 C Hcc); eauto using has_input, hasp_input; apply has_input; assumption.
Qed.
Print Assumptions C112_signature.

(** The signature (1, 6) that the library's own group lets a prover pass off (C54) is rejected over the checked group:
    none of the readings of its scalars satisfies the equation.  The second reading does matter: over F_13 the scalar 2
    has the readings 2 and 15, with different products, and a checked scalar multiplication accepts both. *)
Lemma complete_11 : @complete_curve F11 1 2.
Proof.
  split; [exists 1; reflexivity|]. intros t E. change (@order F11) with 11 in E. rewrite Z.mul_mod in E by lia.
  pose proof (Z.mod_pos_bound t 11 ltac:(lia)) as B.
  assert (t mod 11 = 0 \/ t mod 11 = 1 \/ t mod 11 = 2 \/ t mod 11 = 3 \/ t mod 11 = 4 \/ t mod 11 = 5 \/ t mod 11 = 6 \/
          t mod 11 = 7 \/ t mod 11 = 8 \/ t mod 11 = 9 \/ t mod 11 = 10) as D by lia.
  repeat destruct D as [D|D]; rewrite D in E; vm_compute in E; discriminate E.
Qed.
Lemma on_11 P : (0 <=? fst P) && (fst P <? 11) && (0 <=? snd P) && (snd P <? 11) &&
  ((1 * fst P ^ 2 + snd P ^ 2) mod 11 =? (1 + 2 * fst P ^ 2 * snd P ^ 2) mod 11) = true -> @on_curve F11 1 2 P.
Proof.
  rewrite !andb_true_iff, !Z.leb_le, !Z.ltb_lt, Z.eqb_eq. intros ((((A1 & A2) & A3) & A4) & E).
  split; [split; split; assumption|exact E].
Qed.
Theorem C112_forgery_rejected : let F : Field := F11 in forall s e msg pk,
  sound_call (schnorr_verify (mkCyclic (checked_group (mkEd 1 2)) (Ok (4, 3))) (s, e) msg pk demo_hash)
    (fun w _ => ~ (ev w s = 1 /\ ev w e = 6 /\ ev w msg = 6 /\ evp w pk = (4, 8))).
Proof.
  intros F s e msg pk b r b' w E Hw S (Es & Ee & Em & Ep). destruct demo_hash_facts as (Hm & Hc & Hl).
  destruct (C112_signature F11 prime_F11 eq_refl (mkEd 1 2) (4, 3) demo_hash demo_H complete_11 ltac:(apply on_11; reflexivity) Hm Hc Hl s e msg pk) as [A _].
  destruct (A b r b' w E Hw S) as (n & k & Rn & Rk & Q); [fold F; rewrite Ep; apply on_11; reflexivity|].
  fold F in Rn, Rk, Q. rewrite Es in Rn. rewrite Ee in Rk, Q. rewrite Em, Ep in Q.
  apply (proj1 (C112_readings F11 prime_F11 1 n ltac:(cbn; lia))) in Rn. apply (proj1 (C112_readings F11 prime_F11 6 k ltac:(cbn; lia))) in Rk.
  destruct Rk as [-> | [_ L]]; [|vm_compute in L; discriminate L].
  destruct Rn as [-> | [-> _]]; vm_compute in Q; discriminate Q.
Qed.
Print Assumptions C112_forgery_rejected.

Example C112_example : let F : Field := F13 in let C := mkEd 1 2 in
  complete_curve (ed_a C) (ed_d C) /\ on_curve (ed_a C) (ed_d C) (4, 4) /\ reading 2 2 /\ reading 2 15 /\
  ed_mul 1 2 2 (4, 4) = (1, 0) /\ ed_mul 1 2 15 (4, 4) = (9, 4) /\
  demo [4; 4; 1; 0] (add_expressions (checked_group C) (e_wire 1, e_wire 2) (e_wire 3, e_wire 4)) (fun e => [fst e; snd e]) = Ok (true, [4; 9]) /\
  demo [4; 4; 2] (mul_scalar_expression (checked_group C) (e_wire 1, e_wire 2) (e_wire 3)) (fun e => [fst e; snd e]) = Ok (true, [1; 0]).
Proof.
  intros F C. split; [exact complete_13|]. split; [apply on_13; reflexivity|].
  split; [split; [vm_compute; split; [discriminate|reflexivity]|reflexivity]|].
  split; [split; [vm_compute; split; [discriminate|reflexivity]|reflexivity]|].
  split; [vm_compute; reflexivity|]. split; [vm_compute; reflexivity|]. split; vm_compute; reflexivity.
Qed.
Example C112_signature_example : let F : Field := F11 in
  schnorr_holds 1 2 demo_H (4, 3) (4, 8) 3 6 6 /\
  demo [3; 6; 6; 4; 8] (schnorr_verify (mkCyclic (checked_group (mkEd 1 2)) (Ok (4, 3))) (e_wire 1, e_wire 2) (e_wire 3) (e_wire 4, e_wire 5) demo_hash)
    (fun _ => []) = Ok (true, []).
Proof. intro F. split; vm_compute; reflexivity. Qed.
