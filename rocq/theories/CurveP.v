(** The Edwards gadgets: what they compute honestly, what a malicious prover can make of them, and scalar
    multiplication and Schnorr verification built on them. *)
From Coq Require Import ZArith List Bool Arith Lia Znumtheory Permutation Setoid Morphisms.
From Verif Require Import Base FieldM FieldP ExprM BuilderM GadgetsM CryptoM CurveM Spec SpecCrypto SpecCurve ExprP BitsP MonoP LocalP
  SoundP CmpP GadgetSoundP HonestP ExecP CoreP CompleteP CmpCompleteP GadgetCompleteP SatP ForgeP PropLib CryptoP MiscP EdwardsP.
Import ListNotations.
Open Scope Z_scope.

Lemma Forall2_cons_inv {A B} (R : A -> B -> Prop) x y xs ys : Forall2 R (x :: xs) (y :: ys) -> R x y /\ Forall2 R xs ys.
Proof. intro H. inversion H. auto. Qed.

Section CurveMono.
Context {F : Field} (C : edwards).
Lemma mono_ed_expr_new x y : mono (ed_expr_new C x y).
Proof. unfold ed_expr_new. mono. Qed.
Lemma local_ed_expr_new x y : local (ed_expr_new C x y).
Proof. unfold ed_expr_new. local. Qed.
Lemma mono_ed_add l r : mono (ed_add_expressions C l r).
Proof. unfold ed_add_expressions. destruct l, r. mono. Qed.
Lemma local_ed_add l r : local (ed_add_expressions C l r).
Proof. unfold ed_add_expressions. destruct l, r. local. Qed.
Lemma mono_ed_double p : mono (ed_double_expression C p).
Proof. unfold ed_double_expression. destruct p. mono. Qed.
Lemma local_ed_double p : local (ed_double_expression C p).
Proof. unfold ed_double_expression. destruct p. local. Qed.
End CurveMono.
Global Hint Resolve mono_ed_expr_new mono_ed_add mono_ed_double : mono.
Global Hint Resolve local_ed_expr_new local_ed_add local_ed_double : local.

Section CurveMono2.
Context {F : Field} (C : edwards).
Lemma mono_mul_boolean p b : mono (mul_boolean_expression (edwards_group C) p b).
Proof. unfold mul_boolean_expression. mono. Qed.
Lemma local_mul_boolean p b : local (mul_boolean_expression (edwards_group C) p b).
Proof. unfold mul_boolean_expression. local. Qed.
End CurveMono2.
Global Hint Resolve mono_mul_boolean : mono.
Global Hint Resolve local_mul_boolean : local.

Section CurveMono3.
Context {F : Field} (C : edwards).
Lemma mono_mul_scalar p e : mono (mul_scalar_expression (edwards_group C) p e).
Proof. unfold mul_scalar_expression. cbn [add_expressions double_expression edwards_group g_expr]. mono. Qed.
Lemma local_mul_scalar p e : local (mul_scalar_expression (edwards_group C) p e).
Proof. unfold mul_scalar_expression. cbn [add_expressions double_expression edwards_group g_expr]. local. Qed.
End CurveMono3.
Global Hint Resolve mono_mul_scalar : mono.
Global Hint Resolve local_mul_scalar : local.

Section Curve.
Context {F : Field} (Hp : prime order) (H2 : 2 < order).
Let Hord : 2 <= order := prime_ge2 Hp.
Local Infix "==" := feqm (at level 70).

(** equality of field elements from equality up to multiples of the order *)
Lemma feqm_of_eq x y : x = y -> x == y.
Proof using. intros ->. reflexivity. Qed.
Lemma mod_mod_eq x y : x == y -> x mod order = y mod order.
Proof using. auto. Qed.

Ltac zcong :=
  pose proof (Zadd_feqm Hord); pose proof (Zmul_feqm Hord); pose proof (Zsub_feqm Hord); pose proof (Zopp_feqm Hord);
  rewrite ?(feqm_mod Hord), ?(fopp_eqm Hord), ?(fadd_eqm Hord), ?(fmul_eqm Hord);
  rewrite ?(feqm_mod Hord); apply feqm_of_eq; ring.

Lemma finvv_zinv b : infield b -> finvv b = zinv b.
Proof using Hp H2.
  intro Hb. unfold finvv, zinv. destruct (Z.eqb_spec b 0) as [->|N]; [rewrite Z.pow_0_l by lia; symmetry; apply Z.mod_0_l; lia|].
  apply (fexp_spec Hp). lia.
Qed.

Lemma mod_nz x : x mod order <> 0 <-> ~ x == 0.
Proof using H2. unfold feqm. rewrite Z.mod_0_l by lia. tauto. Qed.

(** ** constructors *)
Lemma ed_point_new_spec C x y : 
  ed_point_new C x y = (if (ed_a C * x ^ 2 + y ^ 2) mod order =? (1 + ed_d C * x ^ 2 * y ^ 2) mod order then Ok (x, y) else Panic).
Proof using Hp.
  unfold ed_point_new.
  replace (fadd (fmul (fmul (ed_a C) x) x) (fmul y y)) with ((ed_a C * x ^ 2 + y ^ 2) mod order).
  2:{ unfold fadd at 1. apply mod_mod_eq. unfold fone. symmetry. zcong. }
  replace (fadd fone (fmul (fmul (fmul (fmul (ed_d C) x) x) y) y)) with ((1 + ed_d C * x ^ 2 * y ^ 2) mod order).
  2:{ unfold fadd at 1, fone. apply mod_mod_eq. symmetry. zcong. }
  destruct (_ =? _); reflexivity.
Qed.

Lemma ed_identity_ok C : ed_identity C = Ok (0, 1).
Proof using Hp.
  unfold ed_identity, fzero, fone. rewrite ed_point_new_spec.
  replace (ed_a C * 0 ^ 2 + 1 ^ 2) with 1 by ring. replace (1 + ed_d C * 0 ^ 2 * 1 ^ 2) with 1 by ring. rewrite Z.eqb_refl. reflexivity.
Qed.

Lemma identity_expression_ok C : identity_expression (edwards_group C) = Ok (e_const 0, e_const 1).
Proof using Hp. unfold identity_expression. cbn [identity_element edwards_group]. rewrite ed_identity_ok. reflexivity. Qed.

Lemma snd_ed_expr_new w (Hw : wf_witness w) C x y : sound w (ed_expr_new C x y)
  (fun r => r = (x, y) /\ on_curve (ed_a C) (ed_d C) (ev w x, ev w y)).
Proof using Hp.
  unfold ed_expr_new. sbind (apply (snd_product Hp w Hw)). intros xx Exx.
  sbind (apply (snd_product Hp w Hw)). intros yy Eyy. sbind (apply (snd_product Hp w Hw)). intros xxyy Exy.
  sbind (apply (snd_assert_equal Hp w Hw)). intros _ E. apply sound_ret. split; [reflexivity|].
  split; [split; apply ev_infield; exact Hord|]. cbn [fst snd].
  rewrite !(ev_add Hord), !(ev_scale Hord), (ev_one Hord) in E by apply Hw. rewrite Exy, Exx, Eyy in E. unfold fadd, fmul in E. apply mod_mod_eq. transitivity ((((ev w x * ev w x) mod order * ed_a C) mod order + (ev w y * ev w y) mod order) mod order).
  - symmetry. zcong.
  - rewrite E. zcong.
Qed.

(** a point held by a pair of expressions *)
Definition hasp (s : st) (e : ed_expr) (P : point) : Prop := has s (fst e) (fst P) /\ has s (snd e) (snd P).
Lemma hasp_ext s s' e P : ext s s' -> hasp s e P -> hasp s' e P.
Proof using. intros X [A1 A2]. split; eapply has_ext; eauto. Qed.
Lemma hasp_plane s e P : hasp s e P -> in_plane P.
Proof using Hp. intros [A1 A2]. split; eapply (has_infield Hp); eauto. Qed.
Lemma hasp_const s P : good s -> in_plane P -> hasp s (e_const (fst P), e_const (snd P)) P.
Proof using Hp. intros G [A1 A2]. split; apply (has_const Hp); assumption. Qed.
Lemma hasp_zero s : good s -> hasp s (e_const 0, e_const 1) ed_zero.
Proof using Hp H2. intro G. apply (hasp_const s ed_zero G). unfold in_plane, ed_zero. cbn [fst snd]. lia. Qed.

Lemma cmpl_ed_expr_new D P C s x y : has s x (fst P) -> has s y (snd P) -> on_curve (ed_a C) (ed_d C) P ->
  forall Pd, comp D Pd s (ed_expr_new C x y) (done Pd (fun r s' => r = (x, y) /\ hasp s' r P)).
Proof using Hp.
  intros Hx Hy [_ Hc] Pd. unfold ed_expr_new.
  cbind (apply (cmpl_product Hp); [exact Hx|exact Hx]). intros xx P1 s1 X1 G1 [-> Hxx]. carry.
  cbind (apply (cmpl_product Hp); [exact Hy|exact Hy]). intros yy P2 s2 X2 G2 [-> Hyy]. carry.
  cbind (apply (cmpl_product Hp); [exact Hxx|exact Hyy]). intros xy P3 s3 X3 G3 [-> Hxy]. carry.
  cbind (eapply (cmpl_assert_equal Hp); [apply (has_add Hp); [apply (has_scale Hp); exact Hxx|exact Hyy]|
    eapply has_eq; [apply (has_add Hp); [apply (has_scale Hp); exact Hxy|apply (has_one Hp), G3]|]];
    transitivity ((1 + ed_d C * fst P ^ 2 * snd P ^ 2) mod order);
      [apply mod_mod_eq; zcong|rewrite <- Hc; apply mod_mod_eq; symmetry; zcong]).
  intros _ P4 s4 _ _ [-> ->]. apply comp_ret. split; [reflexivity|]. split; [reflexivity|]. split; assumption.
Qed.

Section Law.
Context (C : edwards).
Let a := ed_a C.
Let d := ed_d C.

(** ** addition and doubling, honestly *)
Lemma cmpl_ed_add D Pd s l r P Q : complete_curve a d -> on_curve a d P -> on_curve a d Q -> hasp s l P -> hasp s r Q ->
  comp D Pd s (ed_add_expressions C l r) (done Pd (fun e s' => hasp s' e (ed_add a d P Q))).
Proof using Hp H2.
  intros Hcc HP HQ [Hx1 Hy1] [Hx2 Hy2]. destruct (dens_nz Hp H2 a d Hcc P Q HP HQ) as [NX NY].
  destruct l as [x1 y1], r as [x2 y2]. cbn [fst snd] in *. unfold ed_add_expressions.
  cbind (apply (cmpl_product Hp); [exact Hx1|exact Hy2]). intros e1 P1 s1 X1 G1 [-> He1]. carry.
  cbind (apply (cmpl_product Hp); [exact Hy1|exact Hx2]). intros e2 P2 s2 X2 G2 [-> He2]. carry.
  cbind (apply (cmpl_product Hp); [exact Hx1|exact Hx2]). intros e3 P3 s3 X3 G3 [-> He3]. carry.
  cbind (apply (cmpl_product Hp); [exact He1|exact He2]). intros e4 P4 s4 X4 G4 [-> He4]. carry.
  cbind (apply (cmpl_product Hp); [exact Hy1|exact Hy2]). intros e5 P5 s5 X5 G5 [-> He5]. carry.
  assert (DX : has s5 (e_add (e_scale e4 (ed_d C)) e_one) (den_x d P Q)).
  { eapply has_eq; [apply (has_add Hp); [apply (has_scale Hp); exact He4|apply (has_one Hp), G5]|]. unfold den_x, d. apply mod_mod_eq. zcong. }
  assert (DY : has s5 (e_add (e_scale e4 (fopp (ed_d C))) e_one) (den_y d P Q)).
  { eapply has_eq; [apply (has_add Hp); [apply (has_scale Hp); exact He4|apply (has_one Hp), G5]|]. unfold den_y, d. apply mod_mod_eq. zcong. }
  assert (NZ : forall z, infield z -> ~ z == 0 -> z <> 0) by (intros z _ Hz ->; apply Hz; reflexivity).
  pose proof (has_infield Hp _ _ _ DX) as IX. pose proof (has_infield Hp _ _ _ DY) as IY.
  cbind (apply (cmpl_quotient_unsafe Hp H2); [apply (has_add Hp); [exact He1|exact He2]|exact DX|apply NZ; assumption]).
  intros x3 P6 s6 X6 G6 [-> Hx3]. carry.
  cbind (apply (cmpl_quotient_unsafe Hp H2); [apply (has_sub Hp); [exact He5|apply (has_scale Hp); exact He3]|exact DY|apply NZ; assumption]).
  intros y3 P7 s7 X7 G7 [-> Hy3]. carry. rewrite finvv_zinv in Hx3, Hy3 by assumption.
  apply comp_ret. split; [reflexivity|]. split; cbn [fst snd ed_new_unsafe].
  - eapply has_eq; [exact Hx3|]. unfold ed_add. cbn [fst]. apply mod_mod_eq. zcong.
  - eapply has_eq; [exact Hy3|]. unfold ed_add. cbn [snd]. apply mod_mod_eq. unfold a. zcong.
Qed.

Lemma cmpl_ed_double D Pd s p P : complete_curve a d -> on_curve a d P -> hasp s p P ->
  comp D Pd s (ed_double_expression C p) (done Pd (fun e s' => hasp s' e (ed_add a d P P))).
Proof using Hp H2.
  intros Hcc HP [Hx Hy]. destruct (double_dens Hp H2 a d Hcc P HP) as [NX NY].
  destruct p as [x y]. cbn [fst snd] in *. unfold ed_double_expression.
  cbind (apply (cmpl_product Hp); [exact Hx|exact Hy]). intros e1 P1 s1 X1 G1 [-> He1]. carry.
  cbind (apply (cmpl_product Hp); [exact Hx|exact Hx]). intros e2 P2 s2 X2 G2 [-> He2]. carry.
  cbind (apply (cmpl_product Hp); [exact Hy|exact Hy]). intros e3 P3 s3 X3 G3 [-> He3]. carry.
  eapply comp_liftb; [apply el_from_ok; unfold infield; lia|].
  set (px := (a * fst P ^ 2 + snd P ^ 2) mod order). set (py := (2 - a * fst P ^ 2 - snd P ^ 2) mod order).
  assert (NZ : forall z, ~ z == 0 -> z mod order <> 0) by (intros z Hz; apply mod_nz; exact Hz).
  assert (DX : has s3 (e_add (e_scale e2 (ed_a C)) e3) px).
  { eapply has_eq; [apply (has_add Hp); [apply (has_scale Hp); exact He2|exact He3]|]. unfold px, a. apply mod_mod_eq. zcong. }
  cbind (apply (cmpl_quotient_unsafe Hp H2); [apply (has_scale Hp); exact He1|exact DX|apply NZ; exact NX]).
  intros x3 P6 s6 X6 G6 [-> Hx3]. carry.
  eapply comp_liftb; [unfold e_from_uint; rewrite el_from_ok by (unfold infield; lia); reflexivity|].
  assert (DY : has s6 (e_add (e_sub (e_scale (e_neg e2) (ed_a C)) e3) (e_const 2)) py).
  { eapply has_eq; [apply (has_add Hp); [apply (has_sub Hp); [apply (has_scale Hp), (has_neg Hp); exact He2|exact He3]|apply (has_const Hp); [exact G6|unfold infield; lia]]|].
    unfold py, a. apply mod_mod_eq. zcong. }
  cbind (apply (cmpl_quotient_unsafe Hp H2); [apply (has_sub Hp); [exact He3|apply (has_scale Hp); exact He2]|exact DY|apply NZ; exact NY]).
  intros y3 P7 s7 X7 G7 [-> Hy3]. carry.
  rewrite finvv_zinv in Hx3, Hy3 by (apply infield_mod; lia).
  pose proof (zinv_ok Hp H2 px ltac:(unfold px; rewrite (feqm_mod Hord); exact NX)) as IX.
  pose proof (zinv_ok Hp H2 py ltac:(unfold py; rewrite (feqm_mod Hord); exact NY)) as IY.
  pose proof (feqm_mod Hord (a * fst P ^ 2 + snd P ^ 2)) as EX. fold px in EX.
  pose proof (feqm_mod Hord (2 - a * fst P ^ 2 - snd P ^ 2)) as EY. fold py in EY.
  set (R := (((2 * fst P * snd P) * zinv px) mod order, ((snd P ^ 2 - a * fst P ^ 2) * zinv py) mod order)).
  assert (ER : R = ed_add a d P P).
  { apply (double_eq Hp H2 a d Hcc); [exact HP|split; apply Z.mod_pos_bound; lia| |]; cbn [R fst snd].
    - apply (lc3 H2 _ _ _ _ _ _ _ _ (feqm_mod Hord (2 * fst P * snd P * zinv px)) EX IX (a * fst P ^ 2 + snd P ^ 2) (- (2 * fst P * snd P * zinv px)) (2 * fst P * snd P)). ring.
    - apply (lc3 H2 _ _ _ _ _ _ _ _ (feqm_mod Hord ((snd P ^ 2 - a * fst P ^ 2) * zinv py)) EY IY (2 - a * fst P ^ 2 - snd P ^ 2) (- ((snd P ^ 2 - a * fst P ^ 2) * zinv py)) (snd P ^ 2 - a * fst P ^ 2)). ring. }
  rewrite <- ER. apply comp_ret. split; [reflexivity|]. split; cbn [fst snd ed_new_unsafe R].
  - eapply has_eq; [exact Hx3|]. apply mod_mod_eq. zcong.
  - eapply has_eq; [exact Hy3|]. apply mod_mod_eq. unfold a. zcong.
Qed.

Lemma cmpl_mul_boolean D Pd s p P b c : hasp s p P -> has s b c -> is_bit c ->
  comp D Pd s (mul_boolean_expression (edwards_group C) p b) (done Pd (fun e s' => hasp s' e (if c =? 1 then P else ed_zero))).
Proof using Hp H2.
  intros [Hx Hy] Hb Bc. apply comp_hon. intros G _ _. destruct (hasp_zero s G) as [Z0 Z1]. cbn [fst snd ed_zero] in Z0, Z1.
  unfold mul_boolean_expression. eapply comp_liftb; [apply identity_expression_ok|].
  cbn [edwards_group to_components enumerate length seq combine bmap fst snd nth_error].
  eapply comp_bind with (Q := done Pd (fun l s' => exists ex ey, l = [ex; ey] /\ hasp s' (ex, ey) (if c =? 1 then P else ed_zero))).
  - eapply comp_bind with (Q := done Pd (fun e s' => has s' e (if c =? 1 then fst P else 0))).
    { eapply comp_liftb; [reflexivity|]. apply (cmpl_selection Hp); assumption. }
    cbv beta. intros ex P1 s1 X1 G1 [-> Hex]. carry.
    eapply comp_bind with (Q := done Pd (fun l s' => exists ey, l = [ey] /\ has s' ey (if c =? 1 then snd P else 1))).
    { eapply comp_bind with (Q := done Pd (fun e s' => has s' e (if c =? 1 then snd P else 1))).
      { eapply comp_liftb; [reflexivity|]. apply (cmpl_selection Hp); assumption. }
      cbv beta. intros ey P2 s2 X2 G2 [-> Hey].
      eapply comp_bind with (Q := done Pd (fun l s' => l = [] /\ s' = s2)); [apply comp_ret; split; auto|].
      cbv beta. intros ? P3 s3 X3 _ [-> [-> ->]]. apply comp_ret. split; [reflexivity|]. eauto. }
    cbv beta. intros ? P2 s2 X2 G2 [-> (ey & -> & Hey)]. carry. apply comp_ret. split; [reflexivity|]. exists ex, ey. split; [reflexivity|].
    split; cbn [fst snd]; destruct (c =? 1); assumption.
  - cbv beta. intros ? P2 s2 X2 G2 [-> (ex & ey & -> & Hep)]. eapply comp_lift; [reflexivity|]. split; [reflexivity|]. exact Hep.
Qed.

Lemma cmpl_mul_loop D Pd P bits bl : complete_curve a d -> forall s sum cur S0 C0, hasl s bits bl -> Forall is_bit bl ->
  hasp s sum S0 -> hasp s cur C0 -> on_curve a d S0 -> on_curve a d C0 ->
  comp D Pd s (bfold (fun st bit =>
          bp <- mul_boolean_expression (edwards_group C) (snd st) bit ;;
          sum <- ed_add_expressions C (fst st) bp ;;
          cur <- ed_double_expression C (snd st) ;;
          bret (sum, cur)) bits (sum, cur))
    (done Pd (fun st s' => hasp s' (fst st) (ed_add a d S0 (ed_mul a d (Z.to_nat (bits_val bl)) C0)) \/ P)).
Proof using Hp H2.
  intros Hcc. revert bl. induction bits as [|e bits IH]; intros bl s sum cur S0 C0 Hb Bb Hs Hc OS OC; apply Forall2_length in Hb as Lb; destruct bl as [|b bl]; try discriminate.
  - cbn [bfold bits_val]. apply comp_ret. split; [reflexivity|]. left. cbn [fst Z.to_nat ed_mul].
    rewrite (add_zero_r Hp H2 a d Hcc) by exact OS. exact Hs.
  - clear Lb. apply Forall2_cons_inv in Hb. destruct Hb as [He Hb]. apply Forall_cons_iff in Bb. destruct Bb as [B1 Bb].
    cbn [bfold]. eapply comp_bind with (Q := done Pd (fun st s' => hasp s' (fst st) (ed_add a d S0 (if b =? 1 then C0 else ed_zero)) /\ hasp s' (snd st) (ed_add a d C0 C0))).
    { cbn [fst snd]. cbind (apply cmpl_mul_boolean; [exact Hc|exact He|exact B1]). intros bp P1 s1 X1 G1 [-> Hbp].
      apply (hasp_ext _ _ _ _ X1) in Hs, Hc.
      assert (O1 : on_curve a d (if b =? 1 then C0 else ed_zero)) by (destruct (b =? 1); [exact OC|apply (zero_on_curve H2)]).
      cbind (apply cmpl_ed_add; [exact Hcc|exact OS|exact O1|exact Hs|exact Hbp]). intros sm P2 s2 X2 G2 [-> Hsm].
      apply (hasp_ext _ _ _ _ X2) in Hc.
      cbind (apply cmpl_ed_double; [exact Hcc|exact OC|exact Hc]). intros cu P3 s3 X3 G3 [-> Hcu]. apply (hasp_ext _ _ _ _ X3) in Hsm.
      apply comp_ret. split; [reflexivity|]. split; assumption. }
    cbv beta. intros [sm cu] P1 s1 X1 G1 [-> [Hsm Hcu]]. cbn [fst snd] in Hsm, Hcu.
    assert (O1 : on_curve a d (if b =? 1 then C0 else ed_zero)) by (destruct (b =? 1); [exact OC|apply (zero_on_curve H2)]).
    pose proof (add_on_curve Hp H2 a d Hcc C0 C0 OC OC) as O2.
    replace (ed_add a d S0 (ed_mul a d (Z.to_nat (bits_val (b :: bl))) C0)) with
      (ed_add a d (ed_add a d S0 (if b =? 1 then C0 else ed_zero)) (ed_mul a d (Z.to_nat (bits_val bl)) (ed_add a d C0 C0))).
    { apply IH; [eapply hasl_ext; eauto|exact Bb|exact Hsm|exact Hcu|apply (add_on_curve Hp H2 a d Hcc); assumption|exact O2]. }
    rewrite (add_assoc Hp H2 a d Hcc) by (try assumption; apply (mul_on_curve Hp H2 a d Hcc); exact O2). f_equal.
    pose proof (bits_val_bound bl Bb) as V.
    replace (ed_add a d C0 C0) with (ed_mul a d 2 C0) by (cbn [ed_mul]; rewrite (add_zero_r Hp H2 a d Hcc) by exact OC; reflexivity).
    rewrite <- (mul_mul Hp H2 a d Hcc) by exact OC.
    replace (if b =? 1 then C0 else ed_zero) with (ed_mul a d (Z.to_nat b) C0).
    2:{ destruct B1 as [-> | ->]; cbn [Z.eqb Pos.eqb]; [reflexivity|]. apply (mul_1 Hp H2 a d Hcc), OC. }
    rewrite <- (mul_add Hp H2 a d Hcc) by exact OC. f_equal. cbn [bits_val]. destruct B1 as [-> | ->]; lia.
Qed.

Lemma cmpl_mul_scalar D Pd s p P e c : complete_curve a d -> on_curve a d P -> hasp s p P -> has s e c ->
  comp D Pd s (mul_scalar_expression (edwards_group C) p e) (done Pd (fun r s' => hasp s' r (ed_mul a d (Z.to_nat c) P))).
Proof using Hp H2.
  intros Hcc HP Hh He. unfold mul_scalar_expression. pose proof (has_infield Hp _ _ _ He) as Ic.
  cbind (apply (cmpl_split_amb Hp); exact He). intros bits P1 s1 X1 G1 [-> Hb]. apply (hasp_ext _ _ _ _ X1) in Hh.
  eapply comp_liftb; [apply identity_expression_ok|].
  cbind (eapply (cmpl_mul_loop D Pd False bits _ Hcc s1 (e_const 0, e_const 1) p ed_zero P Hb);
    [apply zbl_bits|apply hasp_zero, G1|exact Hh|apply (zero_on_curve H2)|exact HP]).
  intros [sm cu] P2 s2 X2 G2 [-> [Hsm|[]]]. apply comp_ret. split; [reflexivity|]. cbn [fst] in *.
  rewrite (add_zero_l Hp H2 a d Hcc) in Hsm by (apply (mul_on_curve Hp H2 a d Hcc), HP).
  rewrite zbl_val in Hsm by (pose proof (max_bits_upper Hord); unfold infield in *; lia). exact Hsm.
Qed.

(** ** what a malicious prover can do: the quotients are not constrained *)
Lemma fs_ed_add s l r P Q R : hasp s l P -> hasp s r Q -> in_plane R ->
  csat s (ed_add_expressions C l r) (fun e s' => hasp s' e R).
Proof using Hp.
  intros [Hx1 Hy1] [Hx2 Hy2] [R1 R2]. destruct l as [x1 y1], r as [x2 y2]. cbn [fst snd] in *. unfold ed_add_expressions.
  fbind (apply csat_comp; [local|apply (cmpl_product Hp); [exact Hx1|exact Hy2]]). intros e1 s1 X1 G1 He1. carry.
  fbind (apply csat_comp; [local|apply (cmpl_product Hp); [exact Hy1|exact Hx2]]). intros e2 s2 X2 G2 He2. carry.
  fbind (apply csat_comp; [local|apply (cmpl_product Hp); [exact Hx1|exact Hx2]]). intros e3 s3 X3 G3 He3. carry.
  fbind (apply csat_comp; [local|apply (cmpl_product Hp); [exact He1|exact He2]]). intros e4 s4 X4 G4 He4. carry.
  fbind (apply csat_comp; [local|apply (cmpl_product Hp); [exact Hy1|exact Hy2]]). intros e5 s5 X5 G5 He5. carry.
  fbind (apply (fs_quotient_unsafe Hp _ _ _ (fst R)); exact R1). intros x3 s6 X6 G6 Hx3. carry.
  fbind (apply (fs_quotient_unsafe Hp _ _ _ (snd R)); exact R2). intros y3 s7 X7 G7 Hy3. carry.
  apply csat_ret. split; assumption.
Qed.

Lemma fs_ed_double s p P R : hasp s p P -> in_plane R -> csat s (ed_double_expression C p) (fun e s' => hasp s' e R).
Proof using Hp H2.
  intros [Hx Hy] [R1 R2]. destruct p as [x y]. cbn [fst snd] in *. unfold ed_double_expression.
  fbind (apply csat_comp; [local|apply (cmpl_product Hp); [exact Hx|exact Hy]]). intros e1 s1 X1 G1 He1. carry.
  fbind (apply csat_comp; [local|apply (cmpl_product Hp); [exact Hx|exact Hx]]). intros e2 s2 X2 G2 He2. carry.
  fbind (apply csat_comp; [local|apply (cmpl_product Hp); [exact Hy|exact Hy]]). intros e3 s3 X3 G3 He3. carry.
  eapply csat_liftb; [apply el_from_ok; unfold infield; lia|].
  fbind (apply (fs_quotient_unsafe Hp _ _ _ (fst R)); exact R1). intros x3 s6 X6 G6 Hx3. carry.
  eapply csat_liftb; [unfold e_from_uint; rewrite el_from_ok by (unfold infield; lia); reflexivity|].
  fbind (apply (fs_quotient_unsafe Hp _ _ _ (snd R)); exact R2). intros y3 s7 X7 G7 Hy3. carry.
  apply csat_ret. split; assumption.
Qed.

Lemma fs_mul_loop R bits bl : in_plane R -> bits <> [] -> forall s sum cur S0 C0, hasl s bits bl -> Forall is_bit bl ->
  hasp s sum S0 -> hasp s cur C0 ->
  csat s (bfold (fun st bit =>
          bp <- mul_boolean_expression (edwards_group C) (snd st) bit ;;
          sum <- ed_add_expressions C (fst st) bp ;;
          cur <- ed_double_expression C (snd st) ;;
          bret (sum, cur)) bits (sum, cur))
    (fun st s' => hasp s' (fst st) R).
Proof using Hp H2.
  intros HR. revert bl. induction bits as [|e bits IH]; intros bl NE s sum cur S0 C0 Hb Bb Hs Hc; [contradiction|].
  destruct bl as [|b bl]; [inversion Hb|]. apply Forall2_cons_inv in Hb. destruct Hb as [He Hb]. apply Forall_cons_iff in Bb. destruct Bb as [B1 Bb].
  cbn [bfold]. eapply csat_bind with (Q := fun st s' => hasp s' (fst st) R /\ hasp s' (snd st) R).
  { cbn [fst snd]. fbind (apply csat_comp; [local|apply cmpl_mul_boolean; [exact Hc|exact He|exact B1]]). intros bp s1 X1 G1 Hbp.
    apply (hasp_ext _ _ _ _ X1) in Hs, Hc.
    fbind (eapply (fs_ed_add _ _ _ _ _ R); [exact Hs|exact Hbp|exact HR]). intros sm s2 X2 G2 Hsm. apply (hasp_ext _ _ _ _ X2) in Hc.
    fbind (eapply (fs_ed_double _ _ _ R); [exact Hc|exact HR]). intros cu s3 X3 G3 Hcu. apply (hasp_ext _ _ _ _ X3) in Hsm.
    apply csat_ret. split; assumption. }
  cbv beta. intros [sm cu] s1 X1 G1 [Hsm Hcu]. cbn [fst snd] in *. destruct bits as [|e' bits].
  - cbn [bfold]. apply csat_ret. exact Hsm.
  - eapply (IH bl); [discriminate|eapply hasl_ext; eauto|exact Bb|exact Hsm|exact Hcu].
Qed.

Lemma max_bits_pos : (0 < max_bits)%nat.
Proof using Hp d a H2 C. pose proof (max_bits_upper Hord). destruct max_bits; [cbn in *; lia|lia]. Qed.

Lemma fs_mul_scalar s p P e c R : hasp s p P -> has s e c -> in_plane R ->
  csat s (mul_scalar_expression (edwards_group C) p e) (fun r s' => hasp s' r R).
Proof using Hp H2.
  intros Hh He HR. unfold mul_scalar_expression.
  fbind (apply csat_comp; [local|apply (cmpl_split_amb Hp); exact He]). intros bits s1 X1 G1 Hb. apply (hasp_ext _ _ _ _ X1) in Hh.
  eapply csat_liftb; [apply identity_expression_ok|].
  assert (NE : bits <> []). { intros ->. apply Forall2_length in Hb. rewrite zbl_length in Hb. pose proof max_bits_pos. cbn in Hb. lia. }
  fbind (eapply (fs_mul_loop R bits _ HR NE s1 (e_const 0, e_const 1) p ed_zero P Hb); [apply zbl_bits|apply hasp_zero, G1|exact Hh]).
  intros [sm cu] s2 X2 G2 Hsm. apply csat_ret. exact Hsm.
Qed.

(** ** Schnorr *)
Section Schnorr.
Context (g : point) (m : compression) (H : Z -> Z -> Z).
Let CG := mkCyclic (edwards_group C) (Ok g).

Lemma mono_schnorr sg msg pk : (forall x y, mono (m x y)) -> mono (schnorr_verify CG sg msg pk m).
Proof using. intro Mm. unfold schnorr_verify, CG. repeat first [apply Mm|apply mono_mul_scalar|apply mono_ed_add|mono_step]. Qed.
Lemma local_schnorr sg msg pk : (forall x y, local (m x y)) -> local (schnorr_verify CG sg msg pk m).
Proof using. intro Mm. unfold schnorr_verify, CG. repeat first [apply Mm|apply local_mul_scalar|apply local_ed_add|local_step]. Qed.

Lemma snd_schnorr w (Hw : wf_witness w) sg msg pk : computes2 m H ->
  sound w (schnorr_verify CG sg msg pk m) (fun _ => exists c, infield c /\ ev w (snd sg) = H c (ev w msg)).
Proof using Hp.
  intros Hm. unfold schnorr_verify, CG. cbn [cg_group edwards_group add_expressions compressed g_expr].
  destruct Hm as [Mm Hm].
  do 4 (eapply sound_bind with (Q := fun _ => True); [intros ? ? ? _ _; exact I|intro; repeat first [apply Mm|apply mono_mul_scalar|apply mono_ed_add|mono_step]|]; intros ? _).
  eapply sound_bind; [apply (computes2_snd m H); [exact Hw|split; assumption]|intro; mono|]. cbv beta. intros h Eh.
  eapply sound_weaken; [apply (snd_assert_equal Hp w Hw)|]. cbv beta. intros _ E. eexists.
  split; [apply ev_infield, Hord|]. rewrite <- E, Eh. reflexivity.
Qed.

Lemma cmpl_schnorr D Pd s sg msg pk sv ev_ mv PK : completes2 m H -> complete_curve a d -> on_curve a d g -> on_curve a d PK ->
  has s (fst sg) sv -> has s (snd sg) ev_ -> has s msg mv -> hasp s pk PK ->
  ev_ = H (snd (ed_add a d (ed_mul a d (Z.to_nat sv) g) (ed_mul a d (Z.to_nat ev_) PK))) mv ->
  comp D Pd s (schnorr_verify CG sg msg pk m) (done Pd (fun _ _ => True)).
Proof using Hp H2.
  intros Hm Hcc Og OP Hs He Hmsg Hpk E. apply comp_hon. intros G _ _. unfold schnorr_verify.
  eapply comp_liftb; [reflexivity|]. cbn [cg_group CG g_of_elem edwards_group add_expressions compressed].
  cbind (apply (cmpl_mul_scalar D Pd s _ g); [exact Hcc|exact Og|apply hasp_const; [exact G|apply Og]|exact Hs]).
  intros gs P1 s1 X1 G1 [-> Hgs]. carry. apply (hasp_ext _ _ _ _ X1) in Hpk.
  cbind (apply (cmpl_mul_scalar D Pd s1 _ PK); [exact Hcc|exact OP|exact Hpk|exact He]).
  intros ye P2 s2 X2 G2 [-> Hye]. carry. apply (hasp_ext _ _ _ _ X2) in Hgs.
  cbind (apply cmpl_ed_add; [exact Hcc|apply (mul_on_curve Hp H2 a d Hcc); exact Og|apply (mul_on_curve Hp H2 a d Hcc); exact OP|exact Hgs|exact Hye]).
  intros gy P3 s3 X3 G3 [-> [_ Hgy]]. carry.
  cbind (apply Hm; [exact Hgy|exact Hmsg]). intros h P4 s4 X4 G4 [-> Hh]. carry. rewrite <- E in Hh.
  cweaken (eapply (cmpl_assert_equal Hp); [exact Hh|exact He]). intros ? P5 s5 _ _ [-> ->]. split; auto.
Qed.

Lemma fs_schnorr s sg msg pk sv mv PK c : completes2 m H -> (forall x y, local (m x y)) -> in_plane g ->
  has s (fst sg) sv -> has s (snd sg) (H c mv) -> has s msg mv -> hasp s pk PK -> infield c ->
  csat s (schnorr_verify CG sg msg pk m) (fun _ _ => True).
Proof using Hp H2.
  intros Hm Hl Og Hs He Hmsg Hpk Ic. apply csat_good. intro G. unfold schnorr_verify.
  eapply csat_liftb; [reflexivity|]. cbn [cg_group CG g_of_elem edwards_group add_expressions compressed].
  assert (O0 : in_plane (0, c)) by (split; cbn [fst snd]; [lia|exact Ic]).
  fbind (apply (fs_mul_scalar s _ g _ sv (0, c)); [apply hasp_const; assumption|exact Hs|exact O0]).
  intros gs s1 X1 G1 Hgs. carry. apply (hasp_ext _ _ _ _ X1) in Hpk.
  fbind (eapply (fs_mul_scalar s1 _ PK _ _ (0, c)); [exact Hpk|exact He|exact O0]).
  intros ye s2 X2 G2 Hye. carry. apply (hasp_ext _ _ _ _ X2) in Hgs.
  fbind (eapply (fs_ed_add _ _ _ _ _ (0, c)); [exact Hgs|exact Hye|exact O0]). intros gy s3 X3 G3 [_ Hgy]. carry. cbn [snd] in Hgy.
  fbind (apply csat_comp; [apply Hl|apply Hm; [exact Hgy|exact Hmsg]]). intros h s4 X4 G4 Hh. carry.
  fweaken (eapply (fs_assert_equal Hp); [exact Hh|exact He]). auto.
Qed.
End Schnorr.
End Law.
End Curve.
