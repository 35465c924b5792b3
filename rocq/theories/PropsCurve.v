(** C51-C54, C56, C57: twisted Edwards curves, scalar multiplication, Schnorr verification, the shipped
    field orders and the JubJub parameters. *)
From Coq Require Import ZArith List Bool Arith Lia Znumtheory.
From Verif Require Import Base FieldM FieldP ExprM BuilderM GadgetsM CryptoM CurveM Spec SpecCrypto SpecCurve ExprP BitsP MonoP LocalP
  SoundP CmpP GadgetSoundP HonestP ExecP CoreP CompleteP CmpCompleteP GadgetCompleteP SatP ForgeP CostP Demo PropLib CryptoP MiscP
  PrimeP EdwardsP CurveP PropsCost PropsCrypto.
Import ListNotations.
Open Scope Z_scope.

(** The point held by a pair of expressions under an assignment. *)
Definition evp {F : Field} (w : witness) (e : ed_expr) : point := (ev w (fst e), ev w (snd e)).
Definition on_inputs_p (vals : list Z) (e : ed_expr) : Prop := on_inputs vals (fst e) /\ on_inputs vals (snd e).
Definition below_p (n : nat) (e : ed_expr) : Prop := below n (fst e) /\ below n (snd e).

Section Helpers.
Context {F : Field} (Hp : prime order).
Lemma hasp_input vals e : on_inputs_p vals e -> hasp (s0 vals) e (evp (input_witness vals) e).
Proof using. intros [A1 A2]. split; apply has_input; assumption. Qed.
Lemma hasp_below s e : below_p (nx s) e -> hasp s e (evp (wt s) e).
Proof using. intros [A1 A2]. split; split; auto. Qed.
Lemma hasp_ev s e P : hasp s e P -> evp (wt s) e = P.
Proof using. intros [[_ A1] [_ A2]]. unfold evp. rewrite A1, A2. destruct P; reflexivity. Qed.
Lemma hasp_run s v e P : (forall k, (k < nx s)%nat -> m_get k v = Some (wt s k)) -> hasp s e P -> ed_evaluate v e = Ok P.
Proof using Hp.
  intros Hv [A1 A2]. unfold ed_evaluate. rewrite (has_run Hp s v _ _ Hv A1), (has_run Hp s v _ _ Hv A2). cbn [obind]. destruct P; reflexivity.
Qed.
Lemma to_runs_p vals (m : B ed_expr) P : good_inputs vals ->
  comp (fun k => (k <= length vals)%nat) [] (s0 vals) m (done [] (fun r s => hasp s r P)) ->
  runs vals m (fun r v => ed_evaluate v r = Ok P).
Proof using Hp. intros Hv H. eapply (to_runs Hp); [exact Hv|exact H|]. cbv beta. intros r s v Hr _ G. eapply hasp_run; eauto. Qed.
Lemma hasp_const0 P : in_plane P -> hasp (s0 []) (ed_of_point P) P.
Proof using Hp. intros [A1 A2]. split; apply (has_const0 Hp); assumption. Qed.
Lemma evp_eq w e P : evp w e = P -> ev w (fst e) = fst P /\ ev w (snd e) = snd P.
Proof using. intros <-. split; reflexivity. Qed.
Lemma below_has s e : below (nx s) e -> has s e (ev (wt s) e).
Proof using. intro H. split; [exact H|reflexivity]. Qed.
End Helpers.

(** ** C51 *)
(** The law has no exceptional pairs and stays on the curve; the textbook neutral element and negation are
    points of the curve and behave as such. *)
Theorem C51_complete_and_closed : forall (F : Field), prime order -> 2 < order -> forall a d, complete_curve a d ->
  (forall P Q, on_curve a d P -> on_curve a d Q -> den_x d P Q <> 0 /\ den_y d P Q <> 0 /\ on_curve a d (ed_add a d P Q)) /\
  on_curve a d ed_zero /\
  (forall P, on_curve a d P -> on_curve a d (ed_neg P) /\ ed_add a d P ed_zero = P /\ ed_add a d ed_zero P = P /\
     ed_add a d P (ed_neg P) = ed_zero).
Proof.
  intros F Hp H2 a d Hcc. split; [|split].
  - intros P Q HP HQ. destruct (dens_nz Hp H2 a d Hcc P Q HP HQ) as [NX NY].
    split; [|split]; [intro E; apply NX; rewrite E; reflexivity|intro E; apply NY; rewrite E; reflexivity|].
    apply (add_on_curve Hp H2 a d Hcc); assumption.
  - apply (zero_on_curve H2).
  - intros P HP. split; [apply (neg_on_curve H2); exact HP|]. split; [apply (add_zero_r Hp H2 a d Hcc); exact HP|].
    split; [apply (add_zero_l Hp H2 a d Hcc); exact HP|apply (add_neg Hp H2 a d Hcc); exact HP].
Qed.
Print Assumptions C51_complete_and_closed.

(** Points form a commutative group (associativity included), so repeated addition is well defined. *)
Theorem C51_group_law : forall (F : Field), prime order -> 2 < order -> forall a d, complete_curve a d ->
  (forall P Q, ed_add a d P Q = ed_add a d Q P) /\
  (forall P Q R, on_curve a d P -> on_curve a d Q -> on_curve a d R ->
     ed_add a d (ed_add a d P Q) R = ed_add a d P (ed_add a d Q R)) /\
  (forall m n P, on_curve a d P -> ed_mul a d (m + n) P = ed_add a d (ed_mul a d m P) (ed_mul a d n P)).
Proof.
  intros F Hp H2 a d Hcc. split; [|split].
  - intros. apply add_comm.
  - intros. apply (add_assoc Hp H2 a d Hcc); assumption.
  - intros. apply (mul_add Hp H2 a d Hcc); assumption.
Qed.
Print Assumptions C51_group_law.

(** Honest execution of the addition and doubling gadgets. *)
Theorem C51_add_runs : forall (F : Field), prime order -> 2 < order -> forall C, complete_curve (ed_a C) (ed_d C) ->
  forall vals l r, good_inputs vals -> on_inputs_p vals l -> on_inputs_p vals r ->
  on_curve (ed_a C) (ed_d C) (evp (input_witness vals) l) -> on_curve (ed_a C) (ed_d C) (evp (input_witness vals) r) ->
  runs vals (ed_add_expressions C l r) (fun e v =>
    ed_evaluate v e = Ok (ed_add (ed_a C) (ed_d C) (evp (input_witness vals) l) (evp (input_witness vals) r))).
Proof.
  intros F Hp H2 C Hcc vals l r Hv Hl Hr HP HQ. apply (to_runs_p Hp); [exact Hv|].
  apply (cmpl_ed_add Hp H2); try assumption; apply hasp_input; assumption.
Qed.
Print Assumptions C51_add_runs.

Theorem C51_double_runs : forall (F : Field), prime order -> 2 < order -> forall C, complete_curve (ed_a C) (ed_d C) ->
  forall vals p, good_inputs vals -> on_inputs_p vals p -> on_curve (ed_a C) (ed_d C) (evp (input_witness vals) p) ->
  runs vals (ed_double_expression C p) (fun e v =>
    ed_evaluate v e = Ok (ed_add (ed_a C) (ed_d C) (evp (input_witness vals) p) (evp (input_witness vals) p))).
Proof.
  intros F Hp H2 C Hcc vals p Hv Hl HP. apply (to_runs_p Hp); [exact Hv|].
  apply (cmpl_ed_double Hp H2); try assumption; apply hasp_input; assumption.
Qed.
Print Assumptions C51_double_runs.

(** The same on constant points: [add_elements], [double_element], [identity_element]. *)
Theorem C51_elements : forall (F : Field), prime order -> 2 < order -> forall C, complete_curve (ed_a C) (ed_d C) ->
  identity_element (edwards_group C) = Ok ed_zero /\
  (forall P Q, on_curve (ed_a C) (ed_d C) P -> on_curve (ed_a C) (ed_d C) Q ->
     add_elements (edwards_group C) P Q = Ok (ed_add (ed_a C) (ed_d C) P Q)) /\
  (forall P, on_curve (ed_a C) (ed_d C) P -> double_element (edwards_group C) P = Ok (ed_add (ed_a C) (ed_d C) P P)).
Proof.
  intros F Hp H2 C Hcc.
  assert (A : forall P Q, on_curve (ed_a C) (ed_d C) P -> on_curve (ed_a C) (ed_d C) Q ->
     add_elements (edwards_group C) P Q = Ok (ed_add (ed_a C) (ed_d C) P Q)).
  { intros P Q HP HQ. unfold add_elements. apply run_const_runs. cbn [edwards_group g_evaluate add_expressions g_of_elem].
    apply (to_runs_p Hp []); [constructor|]. apply (cmpl_ed_add Hp H2); try assumption; apply (hasp_const0 Hp); [apply HP|apply HQ]. }
  split; [apply (ed_identity_ok Hp)|]. split; [exact A|]. intros P HP. apply A; assumption.
Qed.
Print Assumptions C51_elements.

(** The gadgets constrain nothing about their result: the quotients are unchecked, so any pair of field elements can
    be claimed to be the sum of two points (or the double of one), whatever the operands are. *)
Theorem C51_sum_unconstrained_refuted : forall (F : Field), prime order -> 2 < order -> forall C l r R, in_plane R ->
  sat_call (ed_add_expressions C l r) (fun n _ => below_p n l /\ below_p n r) (fun w e => evp w e = R) /\
  sat_call (ed_double_expression C l) (fun n _ => below_p n l) (fun w e => evp w e = R).
Proof.
  intros F Hp H2 C l r R HR. split; apply to_sat_call; intros s G.
  - intros [Hl Hr]. eapply csat_weaken; [eapply (fs_ed_add Hp C s l r _ _ R); [apply hasp_below, Hl|apply hasp_below, Hr|exact HR]|].
    cbv beta. intros e s' _ _ He. apply hasp_ev, He.
  - intros Hl. eapply csat_weaken; [eapply (fs_ed_double Hp H2 C s l _ R); [apply hasp_below, Hl|exact HR]|].
    cbv beta. intros e s' _ _ He. apply hasp_ev, He.
Qed.
Print Assumptions C51_sum_unconstrained_refuted.

(** A curve over F_13 meeting the hypotheses: a = 1, d = 2, with a sum of two distinct points. *)
Lemma complete_13 : @complete_curve F13 1 2.
Proof.
  split; [exists 1; reflexivity|]. intros t E. change (@order F13) with 13 in E. rewrite Z.mul_mod in E by lia.
  pose proof (Z.mod_pos_bound t 13 ltac:(lia)) as B.
  assert (t mod 13 = 0 \/ t mod 13 = 1 \/ t mod 13 = 2 \/ t mod 13 = 3 \/ t mod 13 = 4 \/ t mod 13 = 5 \/ t mod 13 = 6 \/
          t mod 13 = 7 \/ t mod 13 = 8 \/ t mod 13 = 9 \/ t mod 13 = 10 \/ t mod 13 = 11 \/ t mod 13 = 12) as D by lia.
  repeat destruct D as [D|D]; rewrite D in E; vm_compute in E; discriminate E.
Qed.
Lemma on_13 P : (0 <=? fst P) && (fst P <? 13) && (0 <=? snd P) && (snd P <? 13) &&
  ((1 * fst P ^ 2 + snd P ^ 2) mod 13 =? (1 + 2 * fst P ^ 2 * snd P ^ 2) mod 13) = true -> @on_curve F13 1 2 P.
Proof.
  rewrite !andb_true_iff, !Z.leb_le, !Z.ltb_lt, Z.eqb_eq. intros ((((A1 & A2) & A3) & A4) & E).
  split; [split; split; assumption|exact E].
Qed.
Definition points_13 : list (Z * Z) :=
  filter (fun P => (fst P ^ 2 + snd P ^ 2) mod 13 =? (1 + 2 * fst P ^ 2 * snd P ^ 2) mod 13)
         (list_prod (map Z.of_nat (seq 0 13)) (map Z.of_nat (seq 0 13))).
Example C51_example : let F : Field := F13 in let C := mkEd 1 2 in
  points_13 = [(0, 1); (0, 12); (1, 0); (4, 4); (4, 9); (9, 4); (9, 9); (12, 0)] /\
  complete_curve (ed_a C) (ed_d C) /\ on_curve (ed_a C) (ed_d C) (4, 4) /\ on_curve (ed_a C) (ed_d C) (1, 0) /\
  add_elements (edwards_group C) (4, 4) (1, 0) = Ok (4, 9) /\ double_element (edwards_group C) (4, 4) = Ok (1, 0) /\
  demo [4; 4; 1; 0] (ed_add_expressions C (e_wire 1, e_wire 2) (e_wire 3, e_wire 4)) (fun e => [fst e; snd e]) = Ok (true, [4; 9]) /\
  good_inputs [4; 4; 1; 0] /\ on_inputs_p [4; 4; 1; 0] (e_wire 1, e_wire 2).
Proof.
  intros F C. split; [vm_compute; reflexivity|]. split; [exact complete_13|].
  split; [apply on_13; reflexivity|]. split; [apply on_13; reflexivity|].
  split; [vm_compute; reflexivity|]. split; [vm_compute; reflexivity|]. split; [vm_compute; reflexivity|].
  split; [repeat constructor; cbn; lia|]. split; intros k [<-|[]]; cbn; lia.
Qed.

(** ** C52 *)
Theorem C52_point_new : forall (F : Field), prime order -> forall C x y, 0 <= x < order -> 0 <= y < order ->
  (on_curve (ed_a C) (ed_d C) (x, y) -> ed_point_new C x y = Ok (x, y)) /\
  (~ on_curve (ed_a C) (ed_d C) (x, y) -> ed_point_new C x y = Panic).
Proof.
  intros F Hp C x y Hx Hy. rewrite (ed_point_new_spec Hp). unfold on_curve, in_plane. cbn [fst snd].
  destruct (Z.eqb_spec ((ed_a C * x ^ 2 + y ^ 2) mod order) ((1 + ed_d C * x ^ 2 * y ^ 2) mod order)) as [E|N]; split; intro H; try reflexivity.
  - exfalso. apply H. auto.
  - exfalso. apply N, H.
Qed.
Print Assumptions C52_point_new.

Theorem C52_expression_sound : forall (F : Field), prime order -> forall C x y,
  sound_call (ed_expr_new C x y) (fun w r => r = (x, y) /\ on_curve (ed_a C) (ed_d C) (ev w x, ev w y)).
Proof. intros F Hp C x y. apply to_call. intros w Hw. apply (snd_ed_expr_new Hp w Hw). Qed.
Print Assumptions C52_expression_sound.

Theorem C52_expression_satisfiable : forall (F : Field), prime order -> forall C x y,
  sat_call (ed_expr_new C x y) (fun n w => below n x /\ below n y /\ on_curve (ed_a C) (ed_d C) (ev w x, ev w y))
    (fun w r => evp w r = (ev w x, ev w y)).
Proof.
  intros F Hp C x y. apply to_sat_call. intros s G (Bx & By & HC).
  eapply csat_weaken; [apply csat_comp; [apply local_ed_expr_new|apply (cmpl_ed_expr_new Hp _ (ev (wt s) x, ev (wt s) y)); [apply below_has, Bx|apply below_has, By|exact HC]]|].
  cbv beta. intros r s' X _ [-> Hr]. reflexivity.
Qed.
Print Assumptions C52_expression_satisfiable.

Theorem C52_expression_runs : forall (F : Field), prime order -> forall C vals x y, good_inputs vals ->
  on_inputs vals x -> on_inputs vals y -> on_curve (ed_a C) (ed_d C) (wv vals x, wv vals y) ->
  runs vals (ed_expr_new C x y) (fun r v => ed_evaluate v r = Ok (wv vals x, wv vals y)).
Proof.
  intros F Hp C vals x y Hv Hx Hy HC. apply (to_runs_p Hp); [exact Hv|].
  eapply comp_weaken; [apply (cmpl_ed_expr_new Hp _ (wv vals x, wv vals y)); [apply has_input, Hx|apply has_input, Hy|exact HC]|].
  cbv beta. intros r P' s' _ _ [-> [_ H]]. split; [reflexivity|exact H].
Qed.
Print Assumptions C52_expression_runs.

Example C52_example : let F : Field := F13 in let C := mkEd 1 2 in
  ed_point_new C 4 9 = Ok (4, 9) /\ ed_point_new C 4 5 = Panic /\
  demo [4; 9] (ed_expr_new C (e_wire 1) (e_wire 2)) (fun e => [fst e; snd e]) = Ok (true, [4; 9]) /\
  demo [4; 5] (ed_expr_new C (e_wire 1) (e_wire 2)) (fun e => [fst e; snd e]) = Ok (false, [4; 5]).
Proof. repeat split; vm_compute; reflexivity. Qed.

(** ** C53 *)
Theorem C53_scalar_runs : forall (F : Field), prime order -> 2 < order -> forall C, complete_curve (ed_a C) (ed_d C) ->
  forall vals p e, good_inputs vals -> on_inputs_p vals p -> on_inputs vals e ->
  on_curve (ed_a C) (ed_d C) (evp (input_witness vals) p) ->
  runs vals (mul_scalar_expression (edwards_group C) p e) (fun r v =>
    ed_evaluate v r = Ok (ed_mul (ed_a C) (ed_d C) (Z.to_nat (wv vals e)) (evp (input_witness vals) p))).
Proof.
  intros F Hp H2 C Hcc vals p e Hv Hl He HP. apply (to_runs_p Hp); [exact Hv|].
  apply (cmpl_mul_scalar Hp H2); try assumption; [apply hasp_input; assumption|apply has_input; assumption].
Qed.
Print Assumptions C53_scalar_runs.

Theorem C53_scalar_element : forall (F : Field), prime order -> 2 < order -> forall C, complete_curve (ed_a C) (ed_d C) ->
  forall P s, on_curve (ed_a C) (ed_d C) P -> 0 <= s < order ->
  mul_scalar_element (edwards_group C) P s = Ok (ed_mul (ed_a C) (ed_d C) (Z.to_nat s) P).
Proof.
  intros F Hp H2 C Hcc P s HP Hs. unfold mul_scalar_element. apply run_const_runs. cbn [edwards_group g_evaluate g_of_elem].
  apply (to_runs_p Hp []); [constructor|]. apply (cmpl_mul_scalar Hp H2); try assumption; [apply (hasp_const0 Hp), HP|apply (has_const0 Hp), Hs].
Qed.
Print Assumptions C53_scalar_element.

(** Multiplication by a bit is sound: the coordinates are selected by constraints. *)
Theorem C53_boolean_runs : forall (F : Field), prime order -> 2 < order -> forall C vals p e, good_inputs vals ->
  on_inputs_p vals p -> on_inputs vals e -> is_bit (wv vals e) ->
  runs vals (mul_boolean_expression (edwards_group C) p e) (fun r v =>
    ed_evaluate v r = Ok (if wv vals e =? 1 then evp (input_witness vals) p else ed_zero)).
Proof.
  intros F Hp H2 C vals p e Hv Hl He Hb. apply (to_runs_p Hp); [exact Hv|].
  apply (cmpl_mul_boolean Hp H2); [apply hasp_input; assumption|apply has_input; assumption|exact Hb].
Qed.
Print Assumptions C53_boolean_runs.

(** The second half of the property is false: a satisfying assignment exists for every claimed product. *)
Theorem C53_product_unconstrained_refuted : forall (F : Field), prime order -> 2 < order -> forall C p e R, in_plane R ->
  sat_call (mul_scalar_expression (edwards_group C) p e) (fun n _ => below_p n p /\ below n e) (fun w r => evp w r = R).
Proof.
  intros F Hp H2 C p e R HR. apply to_sat_call. intros s G [Hl He].
  eapply csat_weaken; [eapply (fs_mul_scalar Hp H2 C s p _ e _ R); [apply hasp_below, Hl|apply below_has, He|exact HR]|].
  cbv beta. intros r s' _ _ Hr. apply hasp_ev, Hr.
Qed.
Print Assumptions C53_product_unconstrained_refuted.

Example C53_example : let F : Field := F13 in let C := mkEd 1 2 in
  map (fun n => @ed_mul F 1 2 n (4, 4)) (seq 0 9) = [(0, 1); (4, 4); (1, 0); (4, 9); (0, 12); (9, 9); (12, 0); (9, 4); (0, 1)] /\
  mul_scalar_element (edwards_group C) (4, 4) 11 = Ok (4, 9) /\
  demo [4; 4; 11] (mul_scalar_expression (edwards_group C) (e_wire 1, e_wire 2) (e_wire 3)) (fun e => [fst e; snd e]) = Ok (true, [4; 9]).
Proof. repeat split; vm_compute; reflexivity. Qed.

(** ** C54 *)
(** Honest execution succeeds on every signature that satisfies the Schnorr equation; [H] is the function computed by
    the compression, the point is compressed to its second coordinate. *)
Theorem C54_valid_accepted : forall (F : Field), prime order -> 2 < order -> forall C g m H,
  complete_curve (ed_a C) (ed_d C) -> on_curve (ed_a C) (ed_d C) g -> completes2 m H ->
  forall vals s e msg pk, good_inputs vals -> on_inputs vals s -> on_inputs vals e -> on_inputs vals msg -> on_inputs_p vals pk ->
  on_curve (ed_a C) (ed_d C) (evp (input_witness vals) pk) ->
  wv vals e = H (snd (ed_add (ed_a C) (ed_d C) (ed_mul (ed_a C) (ed_d C) (Z.to_nat (wv vals s)) g)
                                               (ed_mul (ed_a C) (ed_d C) (Z.to_nat (wv vals e)) (evp (input_witness vals) pk)))) (wv vals msg) ->
  runs vals (schnorr_verify (mkCyclic (edwards_group C) (Ok g)) (s, e) msg pk m) (fun _ _ => True).
Proof.
  intros F Hp H2 C g m H Hcc Og Hm vals s e msg pk Hv Hs He Hmsg Hpk OP E. apply (to_runs0 Hp); [exact Hv|].
  eapply (cmpl_schnorr Hp H2); eauto using has_input, hasp_input; apply has_input; assumption.
Qed.
Print Assumptions C54_valid_accepted.

(** What the constraints do enforce: [e] is the hash of the message together with SOME field element. *)
Theorem C54_accepted_only_if : forall (F : Field), prime order -> forall C g m H, computes2 m H -> forall s e msg pk,
  sound_call (schnorr_verify (mkCyclic (edwards_group C) (Ok g)) (s, e) msg pk m)
    (fun w _ => exists c, 0 <= c < order /\ ev w e = H c (ev w msg)).
Proof. intros F Hp C g m H Hm s e msg pk. apply to_call. intros w Hw. exact (snd_schnorr Hp C g m H w Hw (s, e) msg pk Hm). Qed.
Print Assumptions C54_accepted_only_if.

(** ... and nothing else: for every public key and message and every [s], hashing any field element with the message
    gives an accepted signature, without the secret key. *)
Theorem C54_forgery_refuted : forall (F : Field), prime order -> 2 < order -> forall C g m H,
  in_plane g -> completes2 m H -> (forall x y, local (m x y)) -> forall s e msg pk c, 0 <= c < order ->
  sat_call (schnorr_verify (mkCyclic (edwards_group C) (Ok g)) (s, e) msg pk m)
    (fun n w => below n s /\ below n e /\ below n msg /\ below_p n pk /\ ev w e = H c (ev w msg)) (fun _ _ => True).
Proof.
  intros F Hp H2 C g m H Og Hm Hl s e msg pk c Hc. apply to_sat_call. intros st G (Bs & Be & Bm & Bp & E).
  eapply (fs_schnorr Hp H2 C g m H st (s, e) msg pk _ (ev (wt st) msg) _ c Hm Hl Og).
  - apply below_has, Bs.
  - cbn [snd]. rewrite <- E. apply below_has, Be.
  - apply below_has, Bm.
  - apply hasp_below, Bp.
  - exact Hc.
Qed.
Print Assumptions C54_forgery_refuted.

Definition demo_hash : compression := let F : Field := F11 in davies_meyer (mkBC (mimc_encrypt [4; 9] (monomial 3)) (mimc_decrypt [4; 9] (monomial 3))).
Definition demo_H (x y : Z) : Z := let F : Field := F11 in (mimc_fun 3 [4; 9] y x + x) mod order.
Lemma demo_hash_facts : let F : Field := F11 in
  computes2 demo_hash demo_H /\ completes2 demo_hash demo_H /\ forall x y, local (demo_hash x y).
Proof.
  intro F. destruct (mimc_facts prime_F11 [4; 9] (mkBC (mimc_encrypt [4; 9] (monomial 3)) (mimc_decrypt [4; 9] (monomial 3)))) as (_ & A1 & A2 & _).
  - repeat constructor; cbn; lia.
  - unfold mimc_new, el_from. cbn [Z.ltb]. replace (@monomial_new F11 3) with (Ok 3) by (vm_compute; reflexivity). reflexivity.
  - split; [exact (computes2_davies_meyer prime_F11 _ _ A1)|]. split; [exact (completes2_davies_meyer prime_F11 _ _ A2)|].
    intros x y. unfold demo_hash, davies_meyer. cbn [encrypt]. unfold mimc_encrypt. local.
Qed.

(** Instance over F_11 (a = 1, d = 2, generator of order 12) with Davies-Meyer over two-round MiMC and public key
    5*(4,3) = (4,8): (3, 6) is a valid signature of the message 6 and is accepted; honest execution on (1, 6) reports
    an unsatisfied system. *)
Definition demo_group : cyclic_group := let F : Field := F11 in mkCyclic (edwards_group (mkEd 1 2)) (Ok (4, 3)).
Definition schnorr_holds {F : Field} (a d : Z) (H : Z -> Z -> Z) (g pk : point) (s e m : Z) : Prop :=
  e = H (snd (ed_add a d (ed_mul a d (Z.to_nat s) g) (ed_mul a d (Z.to_nat e) pk))) m.
Example C54_example : let F : Field := F11 in
  ed_mul 1 2 5 (4, 3) = (4, 8) /\ schnorr_holds 1 2 demo_H (4, 3) (4, 8) 3 6 6 /\ ~ schnorr_holds 1 2 demo_H (4, 3) (4, 8) 1 6 6 /\
  demo [3; 6; 6; 4; 8] (schnorr_verify demo_group (e_wire 1, e_wire 2) (e_wire 3) (e_wire 4, e_wire 5) demo_hash) (fun _ => []) = Ok (true, []) /\
  demo [1; 6; 6; 4; 8] (schnorr_verify demo_group (e_wire 1, e_wire 2) (e_wire 3) (e_wire 4, e_wire 5) demo_hash) (fun _ => []) = Ok (false, []).
Proof. intro F. split; [vm_compute; reflexivity|]. split; [vm_compute; reflexivity|]. split; [vm_compute; discriminate|]. split; vm_compute; reflexivity. Qed.

(** The property fails on that instance: (1, 6) violates the Schnorr equation, yet the constraints are satisfiable. *)
Theorem C54_invalid_accepted_refuted : let F : Field := F11 in
  ~ schnorr_holds 1 2 demo_H (4, 3) (4, 8) 1 6 6 /\
  forall s e msg pk, sat_call (schnorr_verify demo_group (s, e) msg pk demo_hash)
    (fun n w => below n s /\ below n e /\ below n msg /\ below_p n pk /\
       ev w s = 1 /\ ev w e = 6 /\ ev w msg = 6 /\ evp w pk = (4, 8)) (fun _ _ => True).
Proof.
  intro F. split; [vm_compute; discriminate|]. intros s e msg pk b w W Hw S (Bs & Be & Bm & Bp & Es & Ee & Em & _).
  destruct demo_hash_facts as (_ & Hc & Hl).
  apply (C54_forgery_refuted F11 prime_F11 eq_refl (mkEd 1 2) (4, 3) demo_hash demo_H ltac:(split; cbn; lia) Hc Hl s e msg pk 0 ltac:(cbn; lia) b w W Hw S).
  repeat (split; [assumption|]). fold F. rewrite Ee, Em. vm_compute. reflexivity.
Qed.
Print Assumptions C54_invalid_accepted_refuted.

(** ** C56 *)
Theorem C56_bn128_prime : prime (@order Bn128).
Proof. exact prime_Bn128. Qed.
Print Assumptions C56_bn128_prime.
Theorem C56_bls12_381_prime : prime (@order Bls12_381).
Proof. exact prime_Bls12_381. Qed.
Print Assumptions C56_bls12_381_prime.

(** What the model calls the orders are the numbers of the source: (254 and 255 bits, decimal digits). *)
Example C56_example : @order Bn128 = 21888242871839275222246405745257275088548364400416034343698204186575808495617 /\
  @order Bls12_381 = 52435875175126190479447740508185965837690552500527637822603658699938581184513 /\
  @max_bits Bn128 = 254%nat /\ @max_bits Bls12_381 = 255%nat.
Proof. repeat split; vm_compute; reflexivity. Qed.

(** ** C57 *)
Lemma jubjub_euler : powmod 104867840 ((@order Bls12_381 - 1) / 2) (@order Bls12_381) = @order Bls12_381 - 1.
Proof. vm_compute. reflexivity. Qed.
Lemma jubjub_d_twisted : (ed_d jubjub * (10241 * 3465144826073652318776269530687742778270252468765361963008 *
    (10241 * 3465144826073652318776269530687742778270252468765361963008))) mod @order Bls12_381 = 104867840 mod @order Bls12_381.
Proof. vm_compute. reflexivity. Qed.
Lemma bls_odd : @order Bls12_381 mod 2 = 1.
Proof. vm_compute. reflexivity. Qed.
Lemma jubjub_nonsquare t : (t * t) mod @order Bls12_381 <> ed_d jubjub mod @order Bls12_381.
Proof.
  intro E. assert (Hpos : @order Bls12_381 <> 0) by discriminate.
  apply (euler_nonsquare (@order Bls12_381) 104867840 prime_Bls12_381 bls_odd jubjub_euler (t * (10241 * 3465144826073652318776269530687742778270252468765361963008))).
  generalize jubjub_d_twisted. generalize (10241 * 3465144826073652318776269530687742778270252468765361963008). intros u <-.
  replace (t * u * (t * u)) with (t * t * (u * u)) by ring.
  rewrite Z.mul_mod, E, <- Z.mul_mod by exact Hpos. reflexivity.
Qed.

Theorem C57_jubjub_complete : let F : Field := Bls12_381 in
  complete_curve (ed_a jubjub) (ed_d jubjub) /\ on_curve (ed_a jubjub) (ed_d jubjub) (jubjub_gx, jubjub_gy) /\
  generator_element jubjub_subgroup = Ok (jubjub_gx, jubjub_gy).
Proof.
  intro F. assert (O : on_curve (ed_a jubjub) (ed_d jubjub) (jubjub_gx, jubjub_gy)).
  { split; [split; split; vm_compute; congruence|vm_compute; reflexivity]. }
  split; [|split].
  - split; [|exact jubjub_nonsquare]. exists 3465144826073652318776269530687742778270252468765361963008. vm_compute. reflexivity.
  - exact O.
  - apply (C52_point_new F prime_Bls12_381 jubjub jubjub_gx jubjub_gy); [| |exact O]; split; vm_compute; congruence.
Qed.
Print Assumptions C57_jubjub_complete.

(** Hence the addition law and scalar multiplication apply to every point of JubJub. *)
Theorem C57_jubjub_group : let F : Field := Bls12_381 in let a := ed_a jubjub in let d := ed_d jubjub in
  (forall P Q, on_curve a d P -> on_curve a d Q ->
     on_curve a d (ed_add a d P Q) /\ add_elements (edwards_group jubjub) P Q = Ok (ed_add a d P Q)) /\
  (forall P Q R, on_curve a d P -> on_curve a d Q -> on_curve a d R -> ed_add a d (ed_add a d P Q) R = ed_add a d P (ed_add a d Q R)) /\
  (forall P s, on_curve a d P -> 0 <= s < order -> mul_scalar_element (edwards_group jubjub) P s = Ok (ed_mul a d (Z.to_nat s) P)).
Proof.
  intros F a d. destruct C57_jubjub_complete as (Hcc & _). pose proof prime_Bls12_381 as Hp. assert (H2 : 2 < @order Bls12_381) by reflexivity.
  split; [|split].
  - intros P Q HP HQ. split; [apply (C51_complete_and_closed F Hp H2 a d Hcc); assumption|].
    apply (C51_elements F Hp H2 jubjub Hcc); assumption.
  - apply (C51_group_law F Hp H2 a d Hcc).
  - intros P s HP Hs. apply (C53_scalar_element F Hp H2 jubjub Hcc); assumption.
Qed.
Print Assumptions C57_jubjub_group.

(** Doubling the generator, computed by the addition law over the 255-bit field. *)
Example C57_example : let F : Field := Bls12_381 in
  exists Q, Q <> (jubjub_gx, jubjub_gy) /\ on_curve (ed_a jubjub) (ed_d jubjub) Q /\
    add_elements (edwards_group jubjub) (jubjub_gx, jubjub_gy) (jubjub_gx, jubjub_gy) = Ok Q.
Proof.
  intro F. destruct C57_jubjub_complete as (_ & O & _). destruct C57_jubjub_group as (A & _).
  exists (ed_add (ed_a jubjub) (ed_d jubjub) (jubjub_gx, jubjub_gy) (jubjub_gx, jubjub_gy)).
  split; [|split; apply A; assumption]. intro E.
  destruct C57_jubjub_complete as (Hcc & _). pose proof prime_Bls12_381 as Hp. assert (H2 : 2 < @order Bls12_381) by reflexivity.
  destruct (C51_complete_and_closed F Hp H2 _ _ Hcc) as (_ & _ & N). destruct (N _ O) as (ON & Z0 & _ & NZ).
  pose proof (add_assoc Hp H2 _ _ Hcc _ _ _ O O ON) as As. unfold F in *. rewrite E in As. rewrite NZ in As. rewrite Z0 in As. discriminate As.
Qed.
