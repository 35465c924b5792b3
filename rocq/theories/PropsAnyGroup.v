(** Scalar multiplication and Schnorr verification over any implementation of the [Group] trait.

    [mul_boolean_expression], [mul_scalar_expression] (group.rs 54-105) and [Schnorr::verify] (signature.rs 39-60) are
    default methods and generic functions: they run on whatever implementation of the trait a client supplies.  This
    file states what an implementation must satisfy for them to mean what they say, and proves that this is enough.
    The operation need not be commutative and no inverses are needed: a monoid will do. *)
From Coq Require Import ZArith List Bool Arith Lia Znumtheory.
From Verif Require Import Base FieldM FieldP ExprM BuilderM GadgetsM CryptoM CurveM Spec SpecCrypto SpecCurve ExprP BitsP MonoP LocalP
  SoundP CmpP GadgetSoundP HonestP ExecP CoreP CompleteP CmpCompleteP GadgetCompleteP SatP ForgeP PropLib CryptoP MiscP EdwardsP
  CurveP Demo PropsCurve PropsSafeCurve PropsProgram.
Import ListNotations.
Open Scope Z_scope.

(** A monoid whose elements are lists of component values, all of the same length. *)
Record monoid (ok : list Z -> Prop) (zero : list Z) (op : list Z -> list Z -> list Z) : Prop := {
  mon_zero : ok zero;
  mon_op : forall P Q, ok P -> ok Q -> ok (op P Q);
  mon_assoc : forall P Q R, ok P -> ok Q -> ok R -> op (op P Q) R = op P (op Q R);
  mon_left : forall P, ok P -> op zero P = P;
  mon_right : forall P, ok P -> op P zero = P;
  mon_width : forall P, ok P -> length P = length zero }.
(** n-fold sum *)
Fixpoint times (zero : list Z) (op : list Z -> list Z -> list Z) (n : nat) (P : list Z) : list Z :=
  match n with O => zero | S k => op P (times zero op k P) end.

(** What the constraints of an implementation must enforce: its additions and doublings take elements of the monoid to
    their sum, the identity is the identity, and components are kept by [from_components_unsafe]. *)
Record sound_group {F : Field} (G : group) (ok : list Z -> Prop) (zero : list Z) (op : list Z -> list Z -> list Z) : Prop := {
  sg_id : forall id w, identity_expression G = Ok id -> wf_witness w -> map (ev w) (to_components G id) = zero;
  sg_from : forall l e, length l = length zero -> from_components_unsafe G l = Ok e -> to_components G e = l;
  sg_add_mono : forall l r, mono (add_expressions G l r);
  sg_double_mono : forall p, mono (double_expression G p);
  sg_add : forall l r, sound_call (add_expressions G l r) (fun w e =>
    ok (map (ev w) (to_components G l)) -> ok (map (ev w) (to_components G r)) ->
    map (ev w) (to_components G e) = op (map (ev w) (to_components G l)) (map (ev w) (to_components G r)));
  sg_double : forall p, sound_call (double_expression G p) (fun w e => ok (map (ev w) (to_components G p)) ->
    map (ev w) (to_components G e) = op (map (ev w) (to_components G p)) (map (ev w) (to_components G p))) }.

(** What its generators must compute. *)
Record complete_group {F : Field} (G : group) (ok : list Z -> Prop) (zero : list Z) (op : list Z -> list Z -> list Z) : Prop := {
  cg_id : exists id, identity_expression G = Ok id /\ forall s, good s -> hasl s (to_components G id) zero;
  cg_from : forall l, length l = length zero -> exists e, from_components_unsafe G l = Ok e /\ to_components G e = l;
  cg_add : forall D Pd s l r P Q, ok P -> ok Q -> hasl s (to_components G l) P -> hasl s (to_components G r) Q ->
    comp D Pd s (add_expressions G l r) (done Pd (fun e s' => hasl s' (to_components G e) (op P Q)));
  cg_double : forall D Pd s p P, ok P -> hasl s (to_components G p) P ->
    comp D Pd s (double_expression G p) (done Pd (fun e s' => hasl s' (to_components G e) (op P P)));
  cg_add_local : forall l r, local (add_expressions G l r);
  cg_double_local : forall p, local (double_expression G p) }.

(** The compressed form of an element is a function of its component values. *)
Definition compresses {F : Field} (G : group) (ok : list Z -> Prop) (press : list Z -> Z) : Prop :=
  (forall w e, wf_witness w -> ok (map (ev w) (to_components G e)) -> ev w (compressed G e) = press (map (ev w) (to_components G e))) /\
  (forall s e P, ok P -> hasl s (to_components G e) P -> has s (compressed G e) (press P)).

Section Monoid.
Context (ok : list Z -> Prop) (zero : list Z) (op : list Z -> list Z -> list Z) (M : monoid ok zero op).
Local Notation times := (times zero op).
Lemma times_ok n P : ok P -> ok (times n P).
Proof using M. intro O. induction n as [|n IH]; cbn; [apply M|apply (mon_op _ _ _ M); assumption]. Qed.
Lemma times_add n k P : ok P -> times (n + k) P = op (times n P) (times k P).
Proof using M.
  intro O. induction n as [|n IH]; cbn.
  - symmetry. apply (mon_left _ _ _ M), times_ok, O.
  - rewrite IH. symmetry. apply (mon_assoc _ _ _ M); [exact O| |]; apply times_ok, O.
Qed.
Lemma times_1 P : ok P -> times 1 P = P.
Proof using M. intro O. cbn. apply (mon_right _ _ _ M), O. Qed.
Lemma times_double n P : ok P -> times n (op P P) = times (n * 2) P.
Proof using M.
  intro O. induction n as [|n IH]; cbn; [reflexivity|]. rewrite IH.
  apply (mon_assoc _ _ _ M); [exact O|exact O|apply times_ok, O].
Qed.
Lemma times_step b bl S0 C0 : is_bit b -> Forall is_bit bl -> ok S0 -> ok C0 ->
  op (op S0 (if b =? 1 then C0 else zero)) (times (Z.to_nat (bits_val bl)) (op C0 C0)) =
  op S0 (times (Z.to_nat (bits_val (b :: bl))) C0).
Proof using M.
  intros B1 Bb OS OC.
  assert (O1 : ok (if b =? 1 then C0 else zero)) by (destruct (b =? 1); [exact OC|apply M]).
  rewrite times_double by exact OC. rewrite (mon_assoc _ _ _ M) by (try assumption; apply times_ok, OC). f_equal.
  pose proof (bits_val_bound bl Bb) as V.
  replace (if b =? 1 then C0 else zero) with (times (Z.to_nat b) C0).
  2:{ destruct B1 as [-> | ->]; [reflexivity|]. apply times_1, OC. }
  rewrite <- times_add by exact OC. f_equal. cbn [bits_val]. destruct B1 as [-> | ->]; lia.
Qed.
End Monoid.

Section Any.
Context {F : Field} (Hp : prime order) (G : group).
Let Hord : 2 <= order := prime_ge2 Hp.
Context (ok : list Z -> Prop) (zero : list Z) (op : list Z -> list Z -> list Z) (M : monoid ok zero op).
Local Notation times := (times zero op).
Local Notation vs w e := (map (ev w) (to_components G e)).

Lemma mono_any_boolean p b : mono (mul_boolean_expression G p b).
Proof using. unfold mul_boolean_expression. mono. Qed.
Lemma local_any_boolean p b : local (mul_boolean_expression G p b).
Proof using. unfold mul_boolean_expression. local. Qed.

Definition picks b ic k l : B (list expr) :=
  bmap (fun ix => c <- blift (ounwrap (nth_error ic (fst ix))) ;; selection b (snd ix) c) (combine (seq k (length l)) l).

Lemma mono_picks b ic k l : mono (picks b ic k l).
Proof using. unfold picks. mono. Qed.

Lemma snd_picks w (Hw : wf_witness w) b ic l : is_bit (ev w b) -> forall k,
  sound w (picks b ic k l) (fun r => map (ev w) r = if ev w b =? 1 then map (ev w) l else firstn (length l) (skipn k (map (ev w) ic))).
Proof using Hp.
  intro Bb. unfold picks. induction l as [|x l IH]; intro k; cbn [length seq combine bmap firstn map].
  - apply sound_ret. destruct (ev w b =? 1); reflexivity.
  - eapply sound_bind with (Q := fun e => exists c, nth_error ic k = Some c /\ ev w e = if ev w b =? 1 then ev w x else ev w c); [|intro; mono|].
    { eapply sound_bind with (Q := fun c => nth_error ic k = Some c); [|intro; mono|].
      - apply sound_lift. cbn [fst]. intros c E. destruct (nth_error ic k); inversion E. reflexivity.
      - cbv beta. intros c E. eapply sound_weaken; [apply (snd_selection Hp w Hw); exact Bb|]. cbv beta. cbn [snd]. intros e Ee. exists c. split; assumption. }
    cbv beta. intros e (c & Ec & Ee). sbind (apply (IH (S k))). cbv beta. intros rs Er. apply sound_ret. cbn [map]. rewrite Ee, Er.
    destruct (ev w b =? 1); [reflexivity|].
    apply nth_error_split in Ec. destruct Ec as (l1 & l2 & -> & <-). rewrite map_app. cbn [map].
    replace (skipn (length l1) (map (ev w) l1 ++ ev w c :: map (ev w) l2)) with (ev w c :: map (ev w) l2)
      by (rewrite skipn_app, map_length, Nat.sub_diag, skipn_all2 by (rewrite map_length; lia); reflexivity).
    replace (skipn (S (length l1)) (map (ev w) l1 ++ ev w c :: map (ev w) l2)) with (map (ev w) l2)
      by (rewrite skipn_app, map_length, skipn_all2 by (rewrite map_length; lia); replace (S (length l1) - length l1)%nat with 1%nat by lia; reflexivity).
    reflexivity.
Qed.

Lemma cmpl_picks D Pd b c (Bc : is_bit c) : forall l vl ic zs k s, (length ic = k + length l)%nat -> has s b c -> hasl s l vl -> hasl s ic zs ->
  comp D Pd s (picks b ic k l) (done Pd (fun r s' => hasl s' r (if c =? 1 then vl else skipn k zs))).
Proof using Hp.
  unfold picks. induction l as [|x l IH]; intros vl ic zs k s Lk Hb Hl Hi; apply Forall2_length in Hl as L; destruct vl as [|v vl]; try discriminate;
    cbn [length seq combine bmap].
  - apply comp_ret. split; [reflexivity|]. apply Forall2_length in Hi. cbn [length] in Lk.
    destruct (c =? 1); [constructor|]. rewrite skipn_all2 by lia. constructor.
  - clear L. apply Forall2_cons_inv in Hl. destruct Hl as [Hx Hl]. cbn [length] in Lk.
    pose proof Hi as Hi0. unfold hasl in Hi.
    assert (exists ci, nth_error ic k = Some ci) as [ci Ei].
    { destruct (nth_error ic k) eqn:E; [eauto|]. apply nth_error_None in E. lia. }
    apply nth_error_split in Ei as Q. destruct Q as (l1 & l2 & E12 & L1).
    rewrite E12 in Hi. apply Forall2_app_inv_l in Hi. destruct Hi as (z1 & z2 & Hz1 & Hz2 & ->).
    destruct z2 as [|z z2]; [apply Forall2_length in Hz2; discriminate|]. apply Forall2_cons_inv in Hz2. destruct Hz2 as [Hz Hz2].
    apply Forall2_length in Hz1 as Lz.
    eapply comp_bind.
    { eapply comp_liftb; [cbn [fst]; rewrite Ei; reflexivity|]. cbn [snd]. apply (cmpl_selection Hp D Pd s b x ci c v z); assumption. }
    intros e P1 s1 X1 G1 [-> He]. carry. try apply (hasl_ext _ _ _ _ X1) in Hl. try apply (hasl_ext _ _ _ _ X1) in Hi0.
    cbind (apply (IH vl ic (z1 ++ z :: z2) (S k)); [lia|exact Hb|exact Hl|exact Hi0]). cbv beta. intros rs P2 s2 X2 G2 [-> Hrs]. carry.
    apply comp_ret. split; [reflexivity|].
    replace (skipn k (z1 ++ z :: z2)) with (z :: z2) by (rewrite skipn_app, skipn_all2 by lia; replace (k - length z1)%nat with 0%nat by lia; reflexivity).
    replace (skipn (S k) (z1 ++ z :: z2)) with z2 in Hrs by (rewrite skipn_app, skipn_all2 by lia; replace (S k - length z1)%nat with 1%nat by lia; reflexivity).
    destruct (c =? 1); constructor; assumption.
Qed.

Section Sound.
Context (SG : sound_group G ok zero op).

Lemma snd_any_boolean w (Hw : wf_witness w) p b : is_bit (ev w b) -> ok (vs w p) ->
  sound w (mul_boolean_expression G p b) (fun e => vs w e = if ev w b =? 1 then vs w p else zero).
Proof using Hp M SG.
  intros Bb OP. unfold mul_boolean_expression.
  eapply sound_bind with (Q := fun id => vs w id = zero); [|intro; mono|].
  { apply sound_lift. intros id E. exact (sg_id _ _ _ _ SG id w E Hw). }
  cbv beta. intros id Eid. eapply sound_bind; [apply (snd_picks w Hw b (to_components G id) (to_components G p) Bb 0)|intro; mono|].
  cbv beta. intros r Er. apply sound_lift. intros e Ee. pose proof (mon_width _ _ _ M _ OP) as L. rewrite map_length in L.
  assert (Er' : map (ev w) r = if ev w b =? 1 then vs w p else zero).
  { rewrite Er. destruct (ev w b =? 1); [reflexivity|]. cbn [skipn]. rewrite Eid. apply firstn_all2. lia. }
  assert (Lr : length r = length zero).
  { rewrite <- (map_length (ev w) r), Er'. destruct (ev w b =? 1); [rewrite map_length; exact L|reflexivity]. }
  rewrite (sg_from _ _ _ _ SG r e Lr Ee). exact Er'.
Qed.

Definition aloop (bits : list expr) (st : g_expr G * g_expr G) : B (g_expr G * g_expr G) :=
  bfold (fun st bit =>
          bp <- mul_boolean_expression G (snd st) bit ;;
          sum <- add_expressions G (fst st) bp ;;
          cur <- double_expression G (snd st) ;;
          bret (sum, cur)) bits st.

Lemma mono_astep st bit : mono (bp <- mul_boolean_expression G (snd st) bit ;;
          sum <- add_expressions G (fst st) bp ;; cur <- double_expression G (snd st) ;; bret (sum, cur)).
Proof using SG.
  repeat first [apply mono_any_boolean|apply (sg_add_mono _ _ _ _ SG)|apply (sg_double_mono _ _ _ _ SG)|apply mono_bind; [|intro]|apply mono_ret].
Qed.
Lemma mono_aloop bits st : mono (aloop bits st).
Proof using SG. unfold aloop. apply mono_bfold. intros; apply mono_astep. Qed.

Lemma snd_aloop w (Hw : wf_witness w) bits : Forall (fun e => is_bit (ev w e)) bits -> forall sum cur,
  ok (vs w sum) -> ok (vs w cur) ->
  sound w (aloop bits (sum, cur)) (fun st => vs w (fst st) =
    op (vs w sum) (times (Z.to_nat (bits_val (map (ev w) bits))) (vs w cur))).
Proof using Hp M SG.
  unfold aloop. induction bits as [|e bits IH]; intros Bb sum cur OS OC.
  - cbn [bfold map bits_val]. apply sound_ret. cbn [fst Z.to_nat]. cbn. rewrite (mon_right _ _ _ M) by exact OS. reflexivity.
  - apply Forall_cons_iff in Bb. destruct Bb as [B1 Bb]. cbn [bfold]. 
    assert (O1 : ok (if ev w e =? 1 then vs w cur else zero)) by (destruct (ev w e =? 1); [exact OC|apply M]).
    eapply sound_bind with (Q := fun st => vs w (fst st) = op (vs w sum) (if ev w e =? 1 then vs w cur else zero) /\
      vs w (snd st) = op (vs w cur) (vs w cur)); [|intro; apply mono_bfold; intros; apply mono_astep|].
    { cbn [fst snd].
      eapply sound_bind; [apply (snd_any_boolean w Hw); [exact B1|exact OC]|intro|].
      { repeat first [apply (sg_add_mono _ _ _ _ SG)|apply (sg_double_mono _ _ _ _ SG)|apply mono_bind; [|intro]|apply mono_ret]. }
      cbv beta. intros bp Ebp.
      eapply sound_bind with (Q := fun e0 => vs w e0 = op (vs w sum) (vs w bp)); [|intro|].
      { intros b0 r0 b1 E0 S0. apply (sg_add _ _ _ _ SG sum bp b0 r0 b1 w E0 Hw S0); [exact OS|rewrite Ebp; exact O1]. }
      { repeat first [apply (sg_double_mono _ _ _ _ SG)|apply mono_bind; [|intro]|apply mono_ret]. }
      cbv beta. intros sm Esm.
      eapply sound_bind with (Q := fun e0 => vs w e0 = op (vs w cur) (vs w cur)); [|intro; apply mono_ret|].
      { intros b0 r0 b1 E0 S0. apply (sg_double _ _ _ _ SG cur b0 r0 b1 w E0 Hw S0); exact OC. }
      cbv beta. intros cu Ecu. apply sound_ret. cbn [fst snd]. rewrite Esm, Ecu, Ebp. split; reflexivity. }
    cbv beta. intros [sm cu] [Es Ec]. cbn [fst snd] in Es, Ec.
    eapply sound_weaken; [apply IH; [exact Bb|rewrite Es; apply (mon_op _ _ _ M); assumption|rewrite Ec; apply (mon_op _ _ _ M); assumption]|].
    cbv beta. intros st E. rewrite E, Es, Ec. change (map (ev w) (e :: bits)) with (ev w e :: map (ev w) bits).
    apply (times_step ok zero op M); try assumption. apply Forall_map. exact Bb.
Qed.

Lemma mono_any_scalar p e : mono (mul_scalar_expression G p e).
Proof using SG.
  unfold mul_scalar_expression. apply mono_bind; [mono|intro bits]. apply mono_bind; [mono|intro id]. apply mono_bind; [apply mono_aloop|intro; apply mono_ret].
Qed.

Lemma snd_any_scalar w (Hw : wf_witness w) p e : ok (vs w p) ->
  sound w (mul_scalar_expression G p e) (fun r => exists n, reading (ev w e) n /\ vs w r = times (Z.to_nat n) (vs w p)).
Proof using Hp M SG.
  intros OP. unfold mul_scalar_expression.
  eapply sound_bind; [apply (snd_split_amb Hp w Hw)|intro; apply mono_bind; [mono|intro; apply mono_bind; [apply mono_aloop|intro; apply mono_ret]]|].
  cbv beta. intros bits (Ln & Bb & V).
  eapply sound_bind with (Q := fun id => vs w id = zero); [|intro; apply mono_bind; [apply mono_aloop|intro; apply mono_ret]|].
  { apply sound_lift. intros id E. exact (sg_id _ _ _ _ SG id w E Hw). }
  cbv beta. intros id Eid.
  eapply sound_bind; [apply (snd_aloop w Hw bits Bb id p); [rewrite Eid; apply M|exact OP]|intro; apply mono_ret|].
  cbv beta. intros st E. apply sound_ret. exists (bin_val w bits). split.
  - split.
    + pose proof (bin_val_bound w bits Bb) as B. rewrite Ln in B. exact B.
    + pose proof (ev_infield Hord w e) as I. unfold infield in I. destruct V as [-> | ->].
      * apply Z.mod_small. exact I.
      * rewrite <- (Z.mul_1_l order) at 1. rewrite Z.mod_add by lia. apply Z.mod_small. exact I.
  - rewrite E, Eid. apply (mon_left _ _ _ M), (times_ok ok zero op M), OP.
Qed.
End Sound.

Section Complete.
Context (CG : complete_group G ok zero op).

Lemma cmpl_any_boolean D Pd s p P b c : ok P -> hasl s (to_components G p) P -> has s b c -> is_bit c ->
  comp D Pd s (mul_boolean_expression G p b) (done Pd (fun e s' => hasl s' (to_components G e) (if c =? 1 then P else zero))).
Proof using Hp M CG.
  intros OP Hh Hb Bc. apply comp_hon. intros Gd _ _. unfold mul_boolean_expression. destruct (cg_id _ _ _ _ CG) as (id & Eid & Hid).
  eapply comp_liftb; [exact Eid|]. pose proof (Hid s Gd) as Hz. pose proof (mon_width _ _ _ M _ OP) as LP.
  apply Forall2_length in Hh as L1. apply Forall2_length in Hz as L2.
  cbind (apply (cmpl_picks D Pd b c Bc (to_components G p) P (to_components G id) zero 0 s); [lia|exact Hb|exact Hh|exact Hz]).
  cbv beta. intros r P1 s1 X1 G1 [-> Hr]. cbn [skipn] in Hr.
  assert (Lr : length r = length zero) by (apply Forall2_length in Hr; rewrite Hr; destruct (c =? 1); congruence).
  destruct (cg_from _ _ _ _ CG r Lr) as (e & Ee & Ec). apply comp_lift with (a := e); [exact Ee|]. split; [reflexivity|]. rewrite Ec. exact Hr.
Qed.

Lemma cmpl_aloop D Pd bits bl : forall s sum cur S0 C0, hasl s bits bl -> Forall is_bit bl ->
  hasl s (to_components G sum) S0 -> hasl s (to_components G cur) C0 -> ok S0 -> ok C0 ->
  comp D Pd s (aloop bits (sum, cur))
    (done Pd (fun st s' => hasl s' (to_components G (fst st)) (op S0 (times (Z.to_nat (bits_val bl)) C0)))).
Proof using Hp M CG.
  unfold aloop. revert bl. induction bits as [|e bits IH]; intros bl s sum cur S0 C0 Hb Bb Hs Hc OS OC; apply Forall2_length in Hb as Lb; destruct bl as [|b bl]; try discriminate.
  - cbn [bfold bits_val]. apply comp_ret. split; [reflexivity|]. cbn. rewrite (mon_right _ _ _ M) by exact OS. exact Hs.
  - clear Lb. apply Forall2_cons_inv in Hb. destruct Hb as [He Hb]. apply Forall_cons_iff in Bb. destruct Bb as [B1 Bb].
    assert (O1 : ok (if b =? 1 then C0 else zero)) by (destruct (b =? 1); [exact OC|apply M]).
    cbn [bfold]. eapply comp_bind with (Q := done Pd (fun st s' => hasl s' (to_components G (fst st)) (op S0 (if b =? 1 then C0 else zero)) /\
      hasl s' (to_components G (snd st)) (op C0 C0))).
    { cbn [fst snd]. cbind (apply cmpl_any_boolean; [exact OC|exact Hc|exact He|exact B1]). intros bp P1 s1 X1 G1 [-> Hbp].
      apply (hasl_ext _ _ _ _ X1) in Hs, Hc.
      cbind (apply (cg_add _ _ _ _ CG); [exact OS|exact O1|exact Hs|exact Hbp]). intros sm P2 s2 X2 G2 [-> Hsm].
      apply (hasl_ext _ _ _ _ X2) in Hc.
      cbind (apply (cg_double _ _ _ _ CG); [exact OC|exact Hc]). intros cu P3 s3 X3 G3 [-> Hcu]. apply (hasl_ext _ _ _ _ X3) in Hsm.
      apply comp_ret. split; [reflexivity|]. split; assumption. }
    cbv beta. intros [sm cu] P1 s1 X1 G1 [-> [Hsm Hcu]]. cbn [fst snd] in Hsm, Hcu.
    rewrite <- (times_step ok zero op M) by assumption.
    apply IH; [eapply hasl_ext; eauto|exact Bb|exact Hsm|exact Hcu|apply (mon_op _ _ _ M); assumption|apply (mon_op _ _ _ M); assumption].
Qed.

Lemma local_aloop bits st : local (aloop bits st).
Proof using CG.
  unfold aloop. apply local_bfold. intros st' bit.
  repeat first [apply local_any_boolean|apply (cg_add_local _ _ _ _ CG)|apply (cg_double_local _ _ _ _ CG)|apply local_bind; [|intro]|apply local_ret].
Qed.

Lemma cmpl_any_scalar D Pd s p P e c : ok P -> hasl s (to_components G p) P -> has s e c ->
  comp D Pd s (mul_scalar_expression G p e) (done Pd (fun r s' => hasl s' (to_components G r) (times (Z.to_nat c) P))).
Proof using Hp M CG.
  intros HP Hh He. unfold mul_scalar_expression. pose proof (has_infield Hp _ _ _ He) as Ic.
  cbind (apply (cmpl_split_amb Hp); exact He). intros bits P1 s1 X1 G1 [-> Hb]. apply (hasl_ext _ _ _ _ X1) in Hh.
  destruct (cg_id _ _ _ _ CG) as (id & Eid & Hid). eapply comp_liftb; [exact Eid|].
  cbind (eapply (cmpl_aloop D Pd bits _ s1 id p zero P Hb); [apply zbl_bits|apply Hid, G1|exact Hh|apply M|exact HP]).
  intros [sm cu] P2 s2 X2 G2 [-> Hsm]. apply comp_ret. split; [reflexivity|]. cbn [fst] in *.
  rewrite (mon_left _ _ _ M) in Hsm by (apply (times_ok ok zero op M), HP).
  rewrite zbl_val in Hsm by (pose proof (max_bits_upper Hord); unfold infield in *; lia). exact Hsm.
Qed.

Lemma fs_any_scalar s p P e c n : ok P -> hasl s (to_components G p) P -> has s e c -> reading c n ->
  csat s (mul_scalar_expression G p e) (fun r s' => hasl s' (to_components G r) (times (Z.to_nat n) P)).
Proof using Hp M CG.
  intros HP Hh He [Rn Rc]. unfold mul_scalar_expression.
  assert (V : bits_val (zbl n max_bits) = n) by (apply zbl_val; exact Rn).
  fbind (eapply (fs_split_amb Hp s e c (zbl n max_bits)); [exact He|apply zbl_bits|rewrite V; exact Rc|apply zbl_length]).
  intros bits s1 X1 G1 Hb. apply (hasl_ext _ _ _ _ X1) in Hh.
  destruct (cg_id _ _ _ _ CG) as (id & Eid & Hid). eapply csat_liftb; [exact Eid|].
  fbind (apply csat_comp; [apply local_aloop|]; eapply (cmpl_aloop _ _ bits _ s1 id p zero P Hb); [apply zbl_bits|apply Hid, G1|exact Hh|apply M|exact HP]).
  intros [sm cu] s2 X2 G2 Hsm. apply csat_ret. cbn [fst] in *.
  rewrite (mon_left _ _ _ M), V in Hsm by (apply (times_ok ok zero op M), HP). exact Hsm.
Qed.
End Complete.

Section Schnorr.
Context (g : g_elem G) (gv : list Z) (press : list Z -> Z) (m : compression) (H : Z -> Z -> Z).
Context (SG : sound_group G ok zero op).

Lemma snd_any_schnorr w (Hw : wf_witness w) sg msg pk : computes2 m H -> compresses G ok press -> ok gv -> vs w (g_of_elem G g) = gv -> ok (vs w pk) ->
  sound w (schnorr_verify (mkCyclic G (Ok g)) sg msg pk m) (fun _ => exists n k, reading (ev w (fst sg)) n /\ reading (ev w (snd sg)) k /\
    ev w (snd sg) = H (press (op (times (Z.to_nat n) gv) (times (Z.to_nat k) (vs w pk)))) (ev w msg)).
Proof using Hp M SG.
  intros Hm [Hc _] Og Eg OP. unfold schnorr_verify. cbn [cg_group]. pose proof Hm as [Mm _].
  assert (MM : forall x, mono (hash_check <- m x msg ;; assert_equal hash_check (snd sg))) by (intro; apply mono_bind; [apply Mm|intro; mono]).
  eapply sound_bind with (Q := fun e => e = g_of_elem G g); [apply sound_lift; intros e E; inversion E; reflexivity|
    intro; repeat first [apply MM|apply (mono_any_scalar SG)|apply (sg_add_mono _ _ _ _ SG)|apply mono_bind; [|intro]]|]. cbv beta. intros ge ->.
  eapply sound_bind; [apply (snd_any_scalar SG w Hw); rewrite Eg; exact Og|
    intro; repeat first [apply MM|apply (mono_any_scalar SG)|apply (sg_add_mono _ _ _ _ SG)|apply mono_bind; [|intro]]|].
  cbv beta. intros gs (n & Rn & En). rewrite Eg in En.
  eapply sound_bind; [apply (snd_any_scalar SG w Hw); exact OP|
    intro; repeat first [apply MM|apply (sg_add_mono _ _ _ _ SG)|apply mono_bind; [|intro]]|].
  cbv beta. intros ye (k & Rk & Ek).
  pose proof (times_ok ok zero op M (Z.to_nat n) gv Og) as O1. pose proof (times_ok ok zero op M (Z.to_nat k) _ OP) as O2.
  eapply sound_bind with (Q := fun e => vs w e = op (vs w gs) (vs w ye)); [|intro; apply MM|].
  { intros b0 r0 b1 E0 S0. apply (sg_add _ _ _ _ SG gs ye b0 r0 b1 w E0 Hw S0); [rewrite En|rewrite Ek]; assumption. }
  cbv beta. intros gy Egy. rewrite En, Ek in Egy.
  eapply sound_bind; [apply (computes2_snd m H); [exact Hw|exact Hm]|intro; mono|]. cbv beta. intros h Eh.
  eapply sound_weaken; [apply (snd_assert_equal Hp w Hw)|]. cbv beta. intros _ E. exists n, k.
  split; [exact Rn|]. split; [exact Rk|]. rewrite <- E, Eh, Hc by (try exact Hw; rewrite Egy; apply (mon_op _ _ _ M); assumption). rewrite Egy. reflexivity.
Qed.
End Schnorr.

Section SchnorrC.
Context (g : g_elem G) (gv : list Z) (press : list Z -> Z) (m : compression) (H : Z -> Z -> Z).
Context (CG : complete_group G ok zero op).

Lemma fs_any_schnorr s sg msg pk sv ev_ mv PK n k : completes2 m H -> (forall x y, local (m x y)) -> compresses G ok press ->
  ok gv -> (forall s, good s -> hasl s (to_components G (g_of_elem G g)) gv) -> ok PK ->
  has s (fst sg) sv -> has s (snd sg) ev_ -> has s msg mv -> hasl s (to_components G pk) PK -> reading sv n -> reading ev_ k ->
  ev_ = H (press (op (times (Z.to_nat n) gv) (times (Z.to_nat k) PK))) mv ->
  csat s (schnorr_verify (mkCyclic G (Ok g)) sg msg pk m) (fun _ _ => True).
Proof using Hp M CG.
  intros Hm Hl [_ Hc] Og Hg OP Hs He Hmsg Hpk Rn Rk E. apply csat_good. intro Gd. unfold schnorr_verify.
  eapply csat_liftb; [reflexivity|]. cbn [cg_group].
  fbind (apply (fs_any_scalar CG s _ gv _ sv n); [exact Og|apply Hg, Gd|exact Hs|exact Rn]).
  intros gs s1 X1 G1 Hgs. carry. try apply (hasl_ext _ _ _ _ X1) in Hpk.
  fbind (eapply (fs_any_scalar CG s1 _ PK _ _ k); [exact OP|exact Hpk|exact He|exact Rk]).
  intros ye s2 X2 G2 Hye. carry. try apply (hasl_ext _ _ _ _ X2) in Hgs.
  pose proof (times_ok ok zero op M (Z.to_nat n) gv Og) as O1. pose proof (times_ok ok zero op M (Z.to_nat k) _ OP) as O2.
  fbind (apply csat_comp; [apply (cg_add_local _ _ _ _ CG)|apply (cg_add _ _ _ _ CG); [exact O1|exact O2|exact Hgs|exact Hye]]).
  intros gy s3 X3 G3 Hgy. carry. apply Hc in Hgy; [|apply (mon_op _ _ _ M); assumption].
  fbind (apply csat_comp; [apply Hl|apply Hm; [exact Hgy|exact Hmsg]]). intros h s4 X4 G4 Hh. carry. rewrite <- E in Hh.
  fweaken (eapply (fs_assert_equal Hp); [exact Hh|exact He]). auto.
Qed.

Lemma cmpl_any_schnorr D Pd s sg msg pk sv ev_ mv PK : completes2 m H -> compresses G ok press ->
  ok gv -> (forall s, good s -> hasl s (to_components G (g_of_elem G g)) gv) -> ok PK ->
  has s (fst sg) sv -> has s (snd sg) ev_ -> has s msg mv -> hasl s (to_components G pk) PK ->
  ev_ = H (press (op (times (Z.to_nat sv) gv) (times (Z.to_nat ev_) PK))) mv ->
  comp D Pd s (schnorr_verify (mkCyclic G (Ok g)) sg msg pk m) (done Pd (fun _ _ => True)).
Proof using Hp M CG.
  intros Hm [_ Hc] Og Hg OP Hs He Hmsg Hpk E. apply comp_hon. intros Gd _ _. unfold schnorr_verify.
  eapply comp_liftb; [reflexivity|]. cbn [cg_group].
  cbind (apply (cmpl_any_scalar CG D Pd s _ gv); [exact Og|apply Hg, Gd|exact Hs]).
  intros gs P1 s1 X1 G1 [-> Hgs]. carry. try apply (hasl_ext _ _ _ _ X1) in Hpk.
  cbind (apply (cmpl_any_scalar CG D Pd s1 _ PK); [exact OP|exact Hpk|exact He]).
  intros ye P2 s2 X2 G2 [-> Hye]. carry. try apply (hasl_ext _ _ _ _ X2) in Hgs.
  pose proof (times_ok ok zero op M (Z.to_nat sv) gv Og) as O1. pose proof (times_ok ok zero op M (Z.to_nat ev_) _ OP) as O2.
  cbind (apply (cg_add _ _ _ _ CG); [exact O1|exact O2|exact Hgs|exact Hye]).
  intros gy P3 s3 X3 G3 [-> Hgy]. carry. apply Hc in Hgy; [|apply (mon_op _ _ _ M); assumption].
  cbind (apply Hm; [exact Hgy|exact Hmsg]). intros h P4 s4 X4 G4 [-> Hh]. carry. rewrite <- E in Hh.
  cweaken (eapply (cmpl_assert_equal Hp); [exact Hh|exact He]). intros ? P5 s5 _ _ [-> ->]. split; auto.
Qed.
End SchnorrC.
End Any.

(** ** C115 *)
(** In every satisfying assignment, scalar multiplication over any sound implementation gives the n-fold sum for a
    reading [n] of the scalar. *)
Theorem C115_scalar_sound : forall (F : Field), prime order -> forall G ok zero op, monoid ok zero op -> sound_group G ok zero op ->
  forall p e, sound_call (mul_scalar_expression G p e) (fun w r => ok (map (ev w) (to_components G p)) ->
    exists n, reading (ev w e) n /\ map (ev w) (to_components G r) = times zero op (Z.to_nat n) (map (ev w) (to_components G p))).
Proof. intros F Hp G ok zero op M SG p e b r b' w E Hw S O. exact (snd_any_scalar Hp G ok zero op M SG w Hw p e O b r b' E S). Qed.
Print Assumptions C115_scalar_sound.

(** Every reading can be used by a prover, and honest execution uses the scalar itself. *)
Theorem C115_scalar_complete : forall (F : Field), prime order -> forall G ok zero op, monoid ok zero op -> complete_group G ok zero op ->
  forall p e,
  (forall c n P, ok P -> reading c n ->
    sat_call (mul_scalar_expression G p e)
      (fun k w => Forall (below k) (to_components G p) /\ below k e /\ map (ev w) (to_components G p) = P /\ ev w e = c)
      (fun w r => map (ev w) (to_components G p) = P /\ ev w e = c /\ map (ev w) (to_components G r) = times zero op (Z.to_nat n) P)) /\
  (forall vals, good_inputs vals -> on_inputs_all vals (to_components G p) -> on_inputs vals e ->
    ok (map (ev (input_witness vals)) (to_components G p)) ->
    runs vals (mul_scalar_expression G p e) (fun r v => omap (e_evaluate v) (to_components G r) =
      Ok (times zero op (Z.to_nat (ev (input_witness vals) e)) (map (ev (input_witness vals)) (to_components G p))))).
Proof.
  intros F Hp G ok zero op M CG p e. split.
  - intros c n P OP Rn. apply to_sat_call. intros s Gd (Bp & Be & Ep & Ee).
    assert (Hh : hasl s (to_components G p) P).
    { rewrite <- Ep. apply below_hasl. exact Bp. }
    assert (Hc : has s e c) by (rewrite <- Ee; apply below_has, Be).
    eapply csat_weaken; [apply (fs_any_scalar Hp G ok zero op M CG s p P e c n OP Hh Hc Rn)|].
    cbv beta. intros r s' X _ Hr. split; [apply (fun h => proj1 (hasl_map_ev _ _ _ h)); eapply hasl_ext; eauto|]. split; [|apply (hasl_map_ev _ _ _ Hr)].
    exact (proj2 (has_ext _ _ _ _ X Hc)).
  - intros vals Hv Hl He HP. eapply (to_runs Hp); [exact Hv|
      apply (cmpl_any_scalar Hp G ok zero op M CG); [exact HP|apply hasl_input; assumption|apply has_input; assumption]|].
    cbv beta. intros r s v Hr _ Gd. eapply hasl_evaluate; eauto.
Qed.
Print Assumptions C115_scalar_complete.

(** Schnorr verification over any implementation: the equation holds for a reading of each scalar in every satisfying
    assignment, every such statement has one, and honest execution accepts what satisfies the equation itself. *)
Theorem C115_signature : forall (F : Field), prime order -> forall G ok zero op press, monoid ok zero op ->
  sound_group G ok zero op -> complete_group G ok zero op -> compresses G ok press ->
  forall g gv m H, ok gv -> (forall s, good s -> hasl s (to_components G (g_of_elem G g)) gv) ->
  (forall w, wf_witness w -> map (ev w) (to_components G (g_of_elem G g)) = gv) ->
  computes2 m H -> completes2 m H -> (forall x y, local (m x y)) -> forall s e msg pk,
  sound_call (schnorr_verify (mkCyclic G (Ok g)) (s, e) msg pk m) (fun w _ =>
    ok (map (ev w) (to_components G pk)) -> exists n k, reading (ev w s) n /\ reading (ev w e) k /\
    ev w e = H (press (op (times zero op (Z.to_nat n) gv) (times zero op (Z.to_nat k) (map (ev w) (to_components G pk))))) (ev w msg)) /\
  sat_call (schnorr_verify (mkCyclic G (Ok g)) (s, e) msg pk m) (fun i w =>
    below i s /\ below i e /\ below i msg /\ Forall (below i) (to_components G pk) /\ ok (map (ev w) (to_components G pk)) /\
    exists n k, reading (ev w s) n /\ reading (ev w e) k /\
    ev w e = H (press (op (times zero op (Z.to_nat n) gv) (times zero op (Z.to_nat k) (map (ev w) (to_components G pk))))) (ev w msg))
    (fun _ _ => True) /\
  (forall vals, good_inputs vals -> on_inputs vals s -> on_inputs vals e -> on_inputs vals msg -> on_inputs_all vals (to_components G pk) ->
    let v := input_witness vals in ok (map (ev v) (to_components G pk)) ->
    ev v e = H (press (op (times zero op (Z.to_nat (ev v s)) gv) (times zero op (Z.to_nat (ev v e)) (map (ev v) (to_components G pk))))) (ev v msg) ->
    runs vals (schnorr_verify (mkCyclic G (Ok g)) (s, e) msg pk m) (fun _ _ => True)).
Proof.
  intros F Hp G ok zero op press M SG CG Hpr g gv m H Og Hg Eg Hm Hc Hl s e msg pk. split; [|split].
  - intros b r b' w E Hw S O. exact (snd_any_schnorr Hp G ok zero op M g gv press m H SG w Hw (s, e) msg pk Hm Hpr Og (Eg w Hw) O b r b' E S).
  - apply to_sat_call. intros st Gd (Bs & Be & Bm & Bp & OP & n & k & Rn & Rk & E).
    eapply (fs_any_schnorr Hp G ok zero op M g gv press m H CG st (s, e) msg pk _ _ (ev (wt st) msg) _ n k Hc Hl Hpr Og Hg OP); cbn [fst snd];
      [apply below_has, Bs|apply below_has, Be|apply below_has, Bm|apply below_hasl, Bp|exact Rn|exact Rk|exact E].
  - intros vals Hv Hs He Hmsg Hpk v OP E. apply (to_runs0 Hp); [exact Hv|].
    eapply (cmpl_any_schnorr Hp G ok zero op M g gv press m H CG _ _ _ (s, e) msg pk); cbn [fst snd];
      try eassumption; try (apply has_input; assumption); apply hasl_input; assumption.
Qed.
Print Assumptions C115_signature.

(** The checked curve group of C112 is such an implementation, for every complete curve. *)
Definition curve_ok {F : Field} (C : edwards) (l : list Z) : Prop := exists P, l = [fst P; snd P] /\ on_curve (ed_a C) (ed_d C) P.
Definition curve_op {F : Field} (C : edwards) (l r : list Z) : list Z :=
  let P := ed_add (ed_a C) (ed_d C) (nth 0 l 0, nth 1 l 0) (nth 0 r 0, nth 1 r 0) in [fst P; snd P].
Theorem C115_checked_curve : forall (F : Field), prime order -> 2 < order -> forall C, complete_curve (ed_a C) (ed_d C) ->
  monoid (curve_ok C) [0; 1] (curve_op C) /\ sound_group (checked_group C) (curve_ok C) [0; 1] (curve_op C) /\
  complete_group (checked_group C) (curve_ok C) [0; 1] (curve_op C) /\ compresses (checked_group C) (curve_ok C) (fun l => nth 1 l 0).
Proof.
  intros F Hp H2 C Hcc. pose proof (prime_ge2 Hp) as Hord.
  assert (OPP : forall P Q, curve_op C [fst P; snd P] [fst Q; snd Q] = let R := ed_add (ed_a C) (ed_d C) P Q in [fst R; snd R]).
  { intros [] []. reflexivity. }
  assert (OO : forall w e, curve_ok C (map (ev w) (to_components (checked_group C) e)) -> on_curve (ed_a C) (ed_d C) (evp w e)).
  { intros w [x y] (P & E & O). cbn [to_components checked_group map fst snd] in E. unfold evp. cbn [fst snd]. inversion E as [[E1 E2]]. rewrite E1, E2. destruct P. exact O. }
  split; [|split; [|split]].
  - split.
    + exists ed_zero. split; [reflexivity|apply (zero_on_curve H2)].
    + intros ? ? (P & -> & OP) (Q & -> & OQ). rewrite OPP. eexists. split; [reflexivity|]. apply (add_on_curve Hp H2 _ _ Hcc); assumption.
    + intros ? ? ? (P & -> & OP) (Q & -> & OQ) (R & -> & OR). rewrite !OPP. cbv zeta.
      rewrite (add_assoc Hp H2 _ _ Hcc) by assumption. reflexivity.
    + intros ? (P & -> & OP). change [0; 1] with [fst ed_zero; snd ed_zero]. rewrite OPP. cbv zeta. rewrite (add_zero_l Hp H2 _ _ Hcc) by assumption. reflexivity.
    + intros ? (P & -> & OP). change [0; 1] with [fst ed_zero; snd ed_zero]. rewrite OPP. cbv zeta. rewrite (add_zero_r Hp H2 _ _ Hcc) by assumption. reflexivity.
    + intros ? (P & -> & OP). reflexivity.
  - assert (A : forall l r, sound_call (add_expressions (checked_group C) l r) (fun w e =>
      curve_ok C (map (ev w) (to_components (checked_group C) l)) -> curve_ok C (map (ev w) (to_components (checked_group C) r)) ->
      map (ev w) (to_components (checked_group C) e) =
      curve_op C (map (ev w) (to_components (checked_group C) l)) (map (ev w) (to_components (checked_group C) r)))).
    { intros l r b e b' w E Hw S OL OR.
      pose proof (proj1 (C112_addition F Hp H2 C Hcc) l r b e b' w E Hw S (OO _ _ OL) (OO _ _ OR)) as Q.
      change (map (ev w) (to_components (checked_group C) e)) with [fst (evp w e); snd (evp w e)]. rewrite Q. reflexivity. }
    split.
    + intros id w E Hw. change (identity_expression (edwards_group C) = Ok id) in E. rewrite (identity_expression_ok Hp C) in E. inversion E.
      cbn [to_components checked_group map fst snd]. rewrite !(ev_const Hord) by (try apply Hw; unfold infield; lia). reflexivity.
    + intros l e L E. destruct l as [|x [|y [|z l]]]; try discriminate. inversion E. reflexivity.
    + intros l r. apply mono_checked_add.
    + intros p. apply mono_checked_add.
    + exact A.
    + intros p b e b' w E Hw S O. exact (A p p b e b' w E Hw S O O).
  - assert (HP : forall s e l, curve_ok C l -> hasl s (to_components (checked_group C) e) l -> exists P, l = [fst P; snd P] /\ on_curve (ed_a C) (ed_d C) P /\ hasp s e P).
    { intros s e ? (P & -> & OP) Hh. exists P. split; [reflexivity|]. split; [exact OP|]. cbn [to_components checked_group] in Hh.
      apply Forall2_cons_inv in Hh. destruct Hh as [Hx Hh]. apply Forall2_cons_inv in Hh. destruct Hh as [Hy _]. split; assumption. }
    assert (A : forall D Pd s l r P Q, curve_ok C P -> curve_ok C Q -> hasl s (to_components (checked_group C) l) P -> hasl s (to_components (checked_group C) r) Q ->
      comp D Pd s (checked_add C l r) (done Pd (fun e s' => hasl s' (to_components (checked_group C) e) (curve_op C P Q)))).
    { intros D Pd s l r P0 Q0 OP OQ Hl Hr. destruct (HP _ _ _ OP Hl) as (P & -> & OP' & Hl'). destruct (HP _ _ _ OQ Hr) as (Q & -> & OQ' & Hr').
      rewrite OPP. cbv zeta. eapply comp_weaken; [apply (cmpl_checked_add Hp H2 C Hcc D Pd s l r P Q); assumption|].
      cbv beta. intros e P1 s1 _ _ [-> [Hx Hy]]. split; [reflexivity|]. constructor; [exact Hx|]. constructor; [exact Hy|constructor]. }
    split.
    + eexists. split; [exact (identity_expression_ok Hp C)|]. intros s Gd. destruct (hasp_zero Hp H2 s Gd) as [Hx Hy].
      constructor; [exact Hx|]. constructor; [exact Hy|constructor].
    + intros l L. destruct l as [|x [|y [|z l]]]; try discriminate. eexists. split; reflexivity.
    + exact A.
    + intros D Pd s p P OP Hh. apply A; assumption.
    + intros l r. apply local_checked_add.
    + intros p. apply local_checked_add.
  - split.
    + intros w e _ _. reflexivity.
    + intros s e ? (P & -> & OP) Hh. apply Forall2_cons_inv in Hh. destruct Hh as [_ Hh]. apply Forall2_cons_inv in Hh. exact (proj1 Hh).
Qed.
Print Assumptions C115_checked_curve.

(** An implementation that is no group and not commutative: affine maps [x -> a x + b] under composition.  Scalar
    multiplication over it iterates a map. *)
Definition affine_group {F : Field} : group :=
  mkGroup (Z * Z) (expr * expr) (Ok (1, 0)) (fun P => (e_const (fst P), e_const (snd P)))
    (fun v e => let! x := e_evaluate v (fst e) in let! y := e_evaluate v (snd e) in Ok (x, y))
    (fun l r => a <- product (fst l) (fst r) ;; b <- product (fst l) (snd r) ;; bret (a, e_add b (snd l)))
    (fun p => a <- product (fst p) (fst p) ;; b <- product (fst p) (snd p) ;; bret (a, e_add b (snd p)))
    fst (fun e => [fst e; snd e]) (fun l => match l with [x; y] => Ok (x, y) | _ => Panic end).
Definition affine_ok {F : Field} (l : list Z) : Prop := exists a b, l = [a; b] /\ infield a /\ infield b.
Definition affine_op {F : Field} (l r : list Z) : list Z :=
  [(nth 0 l 0 * nth 0 r 0) mod order; (nth 0 l 0 * nth 1 r 0 + nth 1 l 0) mod order].
Theorem C115_affine : forall (F : Field), prime order ->
  monoid affine_ok [1; 0] affine_op /\ sound_group affine_group affine_ok [1; 0] affine_op /\
  complete_group affine_group affine_ok [1; 0] affine_op /\ compresses affine_group affine_ok (fun l => nth 0 l 0).
Proof.
  intros F Hp. pose proof (prime_ge2 Hp) as Hord.
  assert (MB : forall x, infield (x mod order)) by (intro; apply Z.mod_pos_bound; lia).
  assert (AO : forall x y, affine_ok (affine_op x y)) by (intros; eexists _, _; split; [reflexivity|split; apply MB]).
  split; [|split; [|split]].
  - split.
    + exists 1, 0. unfold infield. repeat split; lia.
    + intros; apply AO.
    + intros ? ? ? (a & b & -> & _) (c & d & -> & _) (e & f & -> & _). unfold affine_op. cbn [nth].
      f_equal; [|f_equal].
      * rewrite Z.mul_mod_idemp_l, Z.mul_mod_idemp_r by lia. f_equal. ring.
      * rewrite (Z.add_mod (_ * f)), Z.mul_mod_idemp_l, Z.mod_mod, <- Z.add_mod by lia.
        rewrite (Z.add_mod (a * ((c * f + d) mod order))), Z.mul_mod_idemp_r, <- Z.add_mod by lia. f_equal. ring.
    + intros ? (a & b & -> & A & B). unfold affine_op. cbn [nth]. rewrite !Z.mul_1_l, Z.add_0_r, !Z.mod_small by assumption. reflexivity.
    + intros ? (a & b & -> & A & B). unfold affine_op. cbn [nth]. rewrite Z.mul_1_r, Z.mul_0_r, Z.add_0_l, !Z.mod_small by assumption. reflexivity.
    + intros ? (a & b & -> & _). reflexivity.
  - assert (A : forall l r, sound_call (add_expressions affine_group l r) (fun w e =>
      affine_ok (map (ev w) (to_components affine_group l)) -> affine_ok (map (ev w) (to_components affine_group r)) ->
      map (ev w) (to_components affine_group e) = affine_op (map (ev w) (to_components affine_group l)) (map (ev w) (to_components affine_group r)))).
    { intros l r b e b' w E Hw S _ _. revert E S. generalize b, e, b'. clear b e b'.
      change (sound w (add_expressions affine_group l r) (fun e => map (ev w) (to_components affine_group e) =
        affine_op (map (ev w) (to_components affine_group l)) (map (ev w) (to_components affine_group r)))).
      cbn [add_expressions affine_group]. sbind (apply (snd_product Hp w Hw)). intros x Ex. sbind (apply (snd_product Hp w Hw)). intros y Ey.
      apply sound_ret. unfold affine_op. cbn [to_components affine_group map fst snd nth]. rewrite Ex, (ev_add_mod Hp w), Ey, Z.add_mod_idemp_l by lia. reflexivity. }
    split.
    + intros id w E Hw. change (Ok (e_const 1, e_const 0) = Ok id) in E.
      assert (id = (e_const 1, e_const 0)) as -> by congruence. cbn [to_components affine_group map fst snd].
      rewrite !(ev_const Hord) by (try apply Hw; unfold infield; lia). reflexivity.
    + intros l e L E. destruct l as [|x [|y [|z l]]]; try discriminate. inversion E. reflexivity.
    + intros l r. cbn [add_expressions affine_group]. mono.
    + intros p. cbn [double_expression affine_group]. mono.
    + exact A.
    + intros p b e b' w E Hw S O. exact (A p p b e b' w E Hw S O O).
  - assert (A : forall D Pd s l r P Q, affine_ok P -> affine_ok Q -> hasl s (to_components affine_group l) P -> hasl s (to_components affine_group r) Q ->
      comp D Pd s (add_expressions affine_group l r) (done Pd (fun e s' => hasl s' (to_components affine_group e) (affine_op P Q)))).
    { intros D Pd s l r P0 Q0 (a & b & -> & _) (c & d & -> & _) Hl Hr. cbn [to_components affine_group] in Hl, Hr.
      apply Forall2_cons_inv in Hl. destruct Hl as [Ha Hl]. apply Forall2_cons_inv in Hl. destruct Hl as [Hb _].
      apply Forall2_cons_inv in Hr. destruct Hr as [Hc Hr]. apply Forall2_cons_inv in Hr. destruct Hr as [Hd _].
      cbn [add_expressions affine_group].
      cbind (apply (cmpl_product Hp); [exact Ha|exact Hc]). intros x P1 s1 X1 G1 [-> Hx]. carry.
      cbind (apply (cmpl_product Hp); [exact Ha|exact Hd]). intros y P2 s2 X2 G2 [-> Hy]. carry.
      apply comp_ret. split; [reflexivity|]. constructor; [exact Hx|]. constructor; [|constructor].
      eapply has_eq; [apply (has_add Hp); [exact Hy|exact Hb]|]. rewrite Z.add_mod_idemp_l by lia. reflexivity. }
    split.
    + eexists. split; [reflexivity|]. intros s Gd. constructor; [apply (has_const Hp); [exact Gd|unfold infield; lia]|].
      constructor; [apply (has_const Hp); [exact Gd|unfold infield; lia]|constructor].
    + intros l L. destruct l as [|x [|y [|z l]]]; try discriminate. eexists. split; reflexivity.
    + exact A.
    + intros D Pd s p P OP Hh. apply (A D Pd s p p P P); assumption.
    + intros l r. cbn [add_expressions affine_group]. local.
    + intros p. cbn [double_expression affine_group]. local.
  - split.
    + intros w e _ _. reflexivity.
    + intros s e ? (a & b & -> & _) Hh. apply Forall2_cons_inv in Hh. exact (proj1 Hh).
Qed.
Print Assumptions C115_affine.

(** Over F_13 the map [x -> 2 x + 1] iterated five times is [x -> 6 x + 5]; composition does not commute; 2 has the
    readings 2 and 15. *)
Example C115_example : let F : Field := F13 in
  affine_op [2; 1] [3; 0] <> affine_op [3; 0] [2; 1] /\ times [1; 0] affine_op 5 [2; 1] = [6; 5] /\
  times [1; 0] affine_op 2 [2; 1] = [4; 3] /\ times [1; 0] affine_op 15 [2; 1] <> [4; 3] /\
  demo [2; 1; 5] (mul_scalar_expression affine_group (e_wire 1, e_wire 2) (e_wire 3)) (fun e => [fst e; snd e]) = Ok (true, [6; 5]) /\
  curve_ok (mkEd 1 2) [4; 4] /\ times [0; 1] (curve_op (mkEd 1 2)) 2 [4; 4] = [1; 0].
Proof.
  intro F. split; [vm_compute; discriminate|]. split; [vm_compute; reflexivity|]. split; [vm_compute; reflexivity|].
  split; [vm_compute; discriminate|]. split; [vm_compute; reflexivity|].
  split; [exists (4, 4); split; [reflexivity|apply on_13; reflexivity]|vm_compute; reflexivity].
Qed.
