(** Proofs about textual forms. *)
From Coq Require Import ZArith NArith List Bool Arith Lia String Ascii DecimalString DecimalN DecimalPos.
From Verif Require Import Base FieldM ExprM BuilderM CryptoM DisplayM ExprP.
Import ListNotations.
Open Scope Z_scope.

Definition chars (s : string) : list ascii := list_ascii_of_string s.
Lemma chars_app a b : chars (a ++ b) = (chars a ++ chars b)%list.
Proof. induction a as [|c a IH]; [reflexivity|]. cbn. f_equal. exact IH. Qed.
Lemma chars_inj a b : chars a = chars b -> a = b.
Proof. intro H. rewrite <- (string_of_list_ascii_of_string a), <- (string_of_list_ascii_of_string b). unfold chars in H. rewrite H. reflexivity. Qed.

(** Cutting at the first occurrence of a character. *)
Lemma cut_first {A} (c : A) : forall x x' r r', ~ In c x -> ~ In c x' -> (x ++ c :: r = x' ++ c :: r')%list -> x = x' /\ r = r'.
Proof.
  induction x as [|a x IH]; intros [|a' x'] r r' H H' E; cbn in E.
  - injection E as ->. auto.
  - injection E as -> _. exfalso. apply H'. left. reflexivity.
  - injection E as -> _. exfalso. apply H. left. reflexivity.
  - injection E as -> E. destruct (IH x' r r') as [-> ->]; auto; intro; [apply H|apply H']; right; assumption.
Qed.
Lemma cut_none {A} (c : A) x x' r' : ~ In c x -> (x = x' ++ c :: r')%list -> False.
Proof. intros H ->. apply H, in_or_app. right. left. reflexivity. Qed.

(** Decimal numbers. *)
Definition digits : list ascii := chars "0123456789".
Lemma uint_digits d : Forall (fun c => In c digits) (chars (NilEmpty.string_of_uint d)).
Proof. induction d; cbn; constructor; try assumption; cbn; tauto. Qed.
Lemma show_N_digits n : Forall (fun c => In c digits) (chars (show_N n)).
Proof.
  unfold show_N, NilZero.string_of_uint. pose proof (uint_digits (N.to_uint n)) as U.
  destruct (N.to_uint n); try exact U. repeat constructor.
Qed.
Lemma to_uint_nonnil n : N.to_uint n <> Decimal.Nil.
Proof. destruct n as [|p]; [discriminate|]. apply DecimalPos.Unsigned.to_uint_nonnil. Qed.
Lemma show_N_parse n : NilZero.uint_of_string (show_N n) = Some (N.to_uint n).
Proof. unfold show_N. apply NilZero.usu. apply to_uint_nonnil. Qed.
Lemma show_N_inj n m : show_N n = show_N m -> n = m.
Proof.
  intro E. apply (f_equal NilZero.uint_of_string) in E. rewrite !show_N_parse in E. injection E as E.
  apply DecimalN.Unsigned.to_uint_inj, E.
Qed.
Lemma show_N_nonempty n : chars (show_N n) <> [].
Proof. intro E. pose proof (show_N_parse n) as P. destruct (show_N n); [discriminate|discriminate E]. Qed.

(** Tokens: a number, or a wire name. *)
Definition number (l : list ascii) : Prop := l <> [] /\ Forall (fun c => In c digits) l.
Definition name (l : list ascii) : Prop := exists k, l = (chars "wire_" ++ k)%list /\ number k.
Definition plain (l : list ascii) : Prop := Forall (fun c => In c (chars "wire_0123456789")) l.
Lemma number_plain l : number l -> plain l.
Proof. intros [_ H]. eapply Forall_impl; [|exact H]. cbn. tauto. Qed.
Lemma name_plain l : name l -> plain l.
Proof. intros (k & -> & H). apply Forall_app. split; [repeat constructor; cbn; tauto|apply number_plain, H]. Qed.
Lemma plain_not l c : plain l -> ~ In c (chars "wire_0123456789") -> ~ In c l.
Proof. intros H N I. exact (N (proj1 (Forall_forall _ _) H c I)). Qed.
Lemma number_name l : number l -> name l -> False.
Proof. intros [_ H] (k & -> & _). apply Forall_inv in H. cbn in H. intuition discriminate. Qed.
Lemma number_show n : number (chars (show_N n)).
Proof. split; [apply show_N_nonempty|apply show_N_digits]. Qed.
Lemma name_wire k : (k <> 0)%nat -> name (chars (show_wire k)).
Proof.
  intro H. unfold show_wire. rewrite (proj2 (Nat.eqb_neq _ _) H). exists (chars (show_N (N.of_nat k))).
  split; [apply chars_app|apply number_show].
Qed.
Lemma show_wire_inj k k' : (k <> 0)%nat -> (k' <> 0)%nat -> show_wire k = show_wire k' -> k = k'.
Proof.
  intros H H' E. unfold show_wire in E. rewrite (proj2 (Nat.eqb_neq _ _) H), (proj2 (Nat.eqb_neq _ _) H') in E.
  apply (f_equal chars) in E. rewrite !chars_app in E. apply app_inv_head in E. apply chars_inj, show_N_inj in E. lia.
Qed.

(** Terms. *)
Definition stars : list ascii := chars " * ".
Definition simple (l : list ascii) : Prop := number l \/ name l \/ exists W D, name W /\ number D /\ (l = W ++ stars ++ D)%list.
Lemma simple_term k v : simple (chars (show_term (k, v))).
Proof.
  unfold show_term, ONE. destruct (Nat.eqb_spec k 0) as [->|N]; [left; apply number_show|].
  destruct (v =? 1)%Z; [right; left; apply name_wire, N|]. right. right. exists (chars (show_wire k)), (chars (show_element v)).
  split; [apply name_wire, N|]. split; [apply number_show|]. rewrite !chars_app. reflexivity.
Qed.
Lemma simple_not l c : simple l -> ~ In c (chars "wire_0123456789 *") -> ~ In c l.
Proof.
  intros H N. assert (P : ~ In c (chars "wire_0123456789")) by (intro I; apply N; cbn in *; tauto).
  destruct H as [H|[H|(W & D & HW & HD & ->)]]; [apply (plain_not l c (number_plain l H) P)|apply (plain_not l c (name_plain l H) P)|].
  rewrite !in_app_iff. intros [I|[I|I]]; [exact (plain_not _ _ (name_plain _ HW) P I)| |exact (plain_not _ _ (number_plain _ HD) P I)].
  apply N. cbn in *. tauto.
Qed.
Lemma show_term_inj k v k' v' : 0 < v -> 0 < v' -> show_term (k, v) = show_term (k', v') -> (k, v) = (k', v').
Proof.
  intros Hv Hv' E. apply (f_equal chars) in E. unfold show_term, ONE in E.
  assert (NW : forall l l', number l -> name l' -> l = l' -> False) by (intros l l' A B ->; exact (number_name _ A B)).
  assert (SP : forall l, plain l -> ~ In " "%char l) by (intros l H; apply (plain_not _ _ H); cbn; intuition discriminate).
  assert (EV : forall a b, 0 < a -> 0 < b -> chars (show_element a) = chars (show_element b) -> a = b).
  { intros a b Ha Hb H. apply chars_inj, show_N_inj in H. lia. }
  destruct (Nat.eqb_spec k 0) as [->|N], (Nat.eqb_spec k' 0) as [->|N'].
  - f_equal. apply EV; assumption.
  - exfalso. destruct (v' =? 1)%Z.
    + exact (NW _ _ (number_show _) (name_wire k' N') E).
    + rewrite !chars_app in E. apply (SP (chars (show_element v)) (number_plain _ (number_show _))). rewrite E. apply in_or_app. right. left. reflexivity.
  - exfalso. destruct (v =? 1)%Z.
    + exact (NW _ _ (number_show _) (name_wire k N) (eq_sym E)).
    + rewrite !chars_app in E. apply (SP (chars (show_element v')) (number_plain _ (number_show _))). rewrite <- E. apply in_or_app. right. left. reflexivity.
  - destruct (Z.eqb_spec v 1) as [->|V], (Z.eqb_spec v' 1) as [->|V'].
    + f_equal. apply show_wire_inj; auto. apply chars_inj, E.
    + exfalso. rewrite !chars_app in E. apply (SP _ (name_plain _ (name_wire k N))). rewrite E. apply in_or_app. right. left. reflexivity.
    + exfalso. rewrite !chars_app in E. apply (SP _ (name_plain _ (name_wire k' N'))). rewrite <- E. apply in_or_app. right. left. reflexivity.
    + rewrite !chars_app in E. apply cut_first in E; [|apply SP, name_plain, name_wire, N|apply SP, name_plain, name_wire, N'].
      destruct E as [E1 E2]. injection E2 as E2. f_equal; [apply show_wire_inj; auto; apply chars_inj, E1|apply EV; assumption].
Qed.

(** Sums. *)
Definition sep : string := " + ".
Lemma concat_inj : forall l l', l <> [] -> l' <> [] -> Forall (fun s => ~ In "+"%char (chars s)) l -> Forall (fun s => ~ In "+"%char (chars s)) l' ->
  String.concat sep l = String.concat sep l' -> l = l'.
Proof.
  assert (X : forall s r, chars (s ++ sep ++ r)%string = ((chars s ++ [" "%char]) ++ "+"%char :: " "%char :: chars r)%list).
  { intros s r. rewrite !chars_app, <- app_assoc. reflexivity. }
  assert (Y : forall s, ~ In "+"%char (chars s) -> ~ In "+"%char (chars s ++ [" "%char])%list).
  { intros s H I. apply in_app_iff in I. destruct I as [I|[I|[]]]; [auto|discriminate]. }
  induction l as [|s l IH]; intros [|s' l'] N N' H H' E; try congruence.
  inversion H as [|? ? Hs Hl]; inversion H' as [|? ? Hs' Hl']; subst.
  destruct l as [|t l], l' as [|t' l']; cbn [String.concat] in E.
  - subst. reflexivity.
  - exfalso. apply (f_equal chars) in E. rewrite X in E. exact (cut_none _ _ _ _ Hs E).
  - exfalso. apply (f_equal chars) in E. rewrite X in E. exact (cut_none _ _ _ _ Hs' (eq_sym E)).
  - apply (f_equal chars) in E. rewrite !X in E. apply cut_first in E; [|apply Y, Hs|apply Y, Hs'].
    destruct E as [E1 E2]. injection E2 as E2. apply app_inv_tail in E1. apply chars_inj in E1, E2. subst s'. f_equal.
    apply IH; congruence || assumption.
Qed.

Definition terms (e : expr) : list string := match e with [] => ["0"%string] | _ => map show_term e end.
Lemma terms_ne e : terms e <> [].
Proof. destruct e; discriminate. Qed.
Lemma terms_simple e : Forall (fun s => simple (chars s)) (terms e).
Proof.
  destruct e as [|a e]; [constructor; [left; split; [discriminate|repeat constructor]|constructor]|]. unfold terms. apply Forall_map, Forall_forall. intros [k v] _. apply simple_term.
Qed.
Lemma simple_nonempty l : simple l -> l <> [].
Proof. intros [[H _]|[(k & -> & _)|(W & D & (k & -> & _) & _ & ->)]]; [exact H|discriminate..]. Qed.
Lemma join_fold (sep : string) : forall l b, b <> EmptyString ->
  fold_left (fun b s => String.append (if (String.length b =? 0)%nat then b else String.append b sep) s) l b =
  match l with [] => b | _ => (b ++ sep ++ String.concat sep l)%string end.
Proof.
  assert (AS : forall a b c : string, ((a ++ b) ++ c)%string = (a ++ b ++ c)%string).
  { intros a b c. apply chars_inj. rewrite !chars_app. apply app_assoc_reverse. }
  induction l as [|s l IH]; intros b Hb; [reflexivity|]. cbn [fold_left].
  assert (L : (String.length b =? 0)%nat = false) by (destruct b; [congruence|reflexivity]). rewrite L, IH.
  - destruct l as [|t l]; cbn [String.concat]; rewrite ?AS; reflexivity.
  - destruct b; [congruence|discriminate].
Qed.
Lemma show_expr_terms e : show_expr e = String.concat sep (terms e).
Proof.
  unfold show_expr. destruct e as [|a e]; [reflexivity|]. cbn [map terms]. unfold util_join. cbn [fold_left String.length Nat.eqb].
  assert (Ha : show_term a <> EmptyString). { intro E. destruct a as [k v]. apply (simple_nonempty _ (simple_term k v)). rewrite E. reflexivity. }
  change (EmptyString ++ show_term a)%string with (show_term a). rewrite join_fold by exact Ha.
  destruct e as [|a' e]; reflexivity.
Qed.

Definition positive (e : expr) : Prop := Forall (fun kc => 0 < snd kc) e.
Lemma terms_inj e e' : positive e -> positive e' -> terms e = terms e' -> e = e'.
Proof.
  assert (Z0 : forall k v, 0 < v -> show_term (k, v) <> "0"%string).
  { intros k v Hv E. assert (Q : show_term (0%nat, 0) = "0"%string) by reflexivity.
    unfold show_term, ONE in E. destruct (Nat.eqb_spec k 0) as [->|N].
    - assert (E' : show_N (Z.to_N v) = show_N 0) by exact E. apply show_N_inj in E'. lia.
    - assert (Hn : name (chars "0")).
      { destruct (v =? 1); [rewrite <- E; apply name_wire, N|]. exfalso. apply (f_equal chars) in E. rewrite !chars_app in E.
        destruct (name_wire k N) as (w & E2 & _). rewrite E2 in E. discriminate. }
      destruct Hn as (w & Hw & _). discriminate. }
  intros H H' E. destruct e as [|[k v] e], e' as [|[k' v'] e']; [reflexivity|..]; unfold terms in E.
  - cbn [map] in E. injection E as E _. exfalso. inversion H' as [|? ? V _]; subst. exact (Z0 _ _ V (eq_sym E)).
  - cbn [map] in E. injection E as E _. exfalso. inversion H as [|? ? V _]; subst. exact (Z0 _ _ V E).
  - revert E. generalize ((k, v) :: e) ((k', v') :: e') H H'. clear. induction l as [|[k v] l IH]; intros [|[k' v'] l'] H H' E; try discriminate; [reflexivity|].
    cbn [map] in E. injection E as E1 E2. inversion H; inversion H'; subst. f_equal; [apply show_term_inj; assumption|apply IH; assumption].
Qed.
Lemma no_plus e : Forall (fun s => ~ In "+"%char (chars s)) (terms e).
Proof. eapply Forall_impl; [|apply terms_simple]. cbv beta. intros s H. apply (simple_not _ _ H). cbn. intuition discriminate. Qed.
Lemma show_expr_inj e e' : positive e -> positive e' -> show_expr e = show_expr e' -> e = e'.
Proof.
  intros H H' E. rewrite !show_expr_terms in E. apply terms_inj; [assumption..|].
  apply concat_inj; [apply terms_ne|apply terms_ne|apply no_plus|apply no_plus|exact E].
Qed.

(** Characters of a sum; factors of a constraint. *)
Lemma show_expr_not e c : ~ In c (chars "wire_0123456789 *+") -> ~ In c (chars (show_expr e)).
Proof.
  intro N. rewrite show_expr_terms. assert (S : Forall (fun s => ~ In c (chars s)) (terms e)).
  { eapply Forall_impl; [|apply terms_simple]. cbv beta. intros s H. apply (simple_not _ _ H). intro I. apply N. cbn in *. tauto. }
  assert (P : ~ In c (chars sep)) by (intro I; apply N; cbn in *; tauto).
  induction S as [|s l Hs Hl IH]; [cbn; tauto|]. destruct l as [|t l]; [exact Hs|].
  change (String.concat sep (s :: t :: l)) with (s ++ sep ++ String.concat sep (t :: l))%string. rewrite !chars_app, !in_app_iff. tauto.
Qed.
Definition paren (l : list ascii) : Prop := exists X, ~ In ")"%char X /\ l = "("%char :: (X ++ [")"%char])%list.
Definition factor (l : list ascii) : Prop := simple l \/ paren l.
Lemma factor_show e : factor (chars (show_factor e)).
Proof.
  unfold show_factor, e_num_terms. destruct (Nat.leb_spec 2 (List.length e)) as [H|H].
  - right. exists (chars (show_expr e)). split; [apply show_expr_not; cbn; intuition discriminate|]. rewrite !chars_app. reflexivity.
  - left. rewrite show_expr_terms. pose proof (terms_simple e) as T. destruct e as [|a [|b e]]; [..|cbn in H; lia]; cbn [terms map String.concat] in *; apply (Forall_inv T).
Qed.
Lemma simple_head l : simple l -> ~ In "("%char (firstn 1 l).
Proof. intros H I. apply (simple_not l "("%char H); [cbn; intuition discriminate|]. rewrite <- (firstn_skipn 1 l). apply in_or_app. auto. Qed.

Lemma factors_inj A A' B B' : factor A -> factor A' -> factor B -> factor B' ->
  (A ++ stars ++ B = A' ++ stars ++ B')%list -> A = A' /\ B = B'.
Proof.
  assert (SP : forall l, plain l -> ~ In " "%char l) by (intros l H; apply (plain_not _ _ H); cbn; intuition discriminate).
  assert (OP : forall l r l' r', simple l -> paren l' -> (l ++ r = l' ++ r')%list -> False).
  { intros l r l' r' S (X & _ & ->) E. pose proof (simple_nonempty _ S) as NE. destruct l as [|c l]; [congruence|]. injection E as -> _.
    apply (simple_head _ S). left. reflexivity. }
  (* a factor never starts with a number followed by a space *)
  assert (NB : forall D r B, number D -> factor B -> (B = D ++ " "%char :: r)%list -> False).
  { intros D r B0 HD HB E. rewrite E in HB. clear E. destruct HB as [HB|(X & _ & HX)].
    - destruct HB as [[_ HB]|[(k & HB & HK)|(W & D' & (k & -> & HK) & _ & HB)]].
      + apply Forall_app in HB. destruct HB as [_ HB]. apply Forall_inv in HB. cbn in HB. intuition discriminate.
      + destruct HD as [ND HD]. destruct D as [|d D]; [congruence|]. injection HB as -> _. apply Forall_inv in HD. cbn in HD. intuition discriminate.
      + destruct HD as [ND HD]. destruct D as [|d D]; [congruence|]. injection HB as -> _. apply Forall_inv in HD. cbn in HD. intuition discriminate.
    - destruct HD as [ND HD]. destruct D as [|d D]; [congruence|]. injection HX as -> _. apply Forall_inv in HD. cbn in HD. intuition discriminate. }
  (* the common case: both single terms, cut at the first space *)
  assert (CUT : forall T r T' r', plain T -> plain T' -> (T ++ " "%char :: r = T' ++ " "%char :: r')%list -> T = T' /\ r = r').
  { intros T r T' r' HT HT' E. apply (cut_first " "%char); auto. }
  assert (TOK : forall l, number l \/ name l -> plain l) by (intros l [H|H]; [apply number_plain, H|apply name_plain, H]).
  intros HA HA' HB HB' E. destruct HA as [HA|HA], HA' as [HA'|HA'].
  - assert (CA : (number A \/ name A) \/ exists W D, name W /\ number D /\ A = (W ++ stars ++ D)%list) by (destruct HA as [?|[?|?]]; auto).
    assert (CA' : (number A' \/ name A') \/ exists W D, name W /\ number D /\ A' = (W ++ stars ++ D)%list) by (destruct HA' as [?|[?|?]]; auto).
    destruct CA as [CA|(W & D & HW & HD & ->)], CA' as [CA'|(W' & D' & HW' & HD' & ->)].
    + apply CUT in E; auto. destruct E as [-> E]. injection E as ->. auto.
    + exfalso. rewrite <- !app_assoc in E. apply CUT in E; [|apply TOK, CA|apply name_plain, HW']. destruct E as [_ E]. injection E as E.
      exact (NB _ _ _ HD' HB E).
    + exfalso. rewrite <- !app_assoc in E. symmetry in E. apply CUT in E; [|apply TOK, CA'|apply name_plain, HW]. destruct E as [_ E]. injection E as E.
      exact (NB _ _ _ HD HB' E).
    + rewrite <- !app_assoc in E. apply CUT in E; [|apply name_plain, HW|apply name_plain, HW']. destruct E as [-> E]. injection E as E.
      apply CUT in E; [|apply number_plain, HD|apply number_plain, HD']. destruct E as [-> E]. injection E as ->. auto.
  - exfalso. exact (OP _ _ _ _ HA HA' E).
  - exfalso. exact (OP _ _ _ _ HA' HA (eq_sym E)).
  - destruct HA as (X & HX & ->), HA' as (X' & HX' & ->). cbn [app] in E. injection E as E. rewrite <- !app_assoc in E. cbn [app] in E.
    apply cut_first in E; [|assumption..]. destruct E as [-> E]. injection E as ->. auto.
Qed.
Lemma show_factor_inj e e' : positive e -> positive e' -> show_factor e = show_factor e' -> e = e'.
Proof.
  intros H H' E. apply show_expr_inj; [assumption..|]. apply (f_equal chars) in E. unfold show_factor in E.
  assert (K : forall e, ~ In "("%char (chars (show_expr e))) by (intro e0; apply show_expr_not; cbn; intuition discriminate).
  destruct (2 <=? e_num_terms e)%nat, (2 <=? e_num_terms e')%nat.
  - rewrite !chars_app in E. apply app_inv_head, app_inv_tail in E. apply chars_inj, E.
  - exfalso. rewrite !chars_app in E. apply (K e'). rewrite <- E. left. reflexivity.
  - exfalso. rewrite !chars_app in E. apply (K e). rewrite E. left. reflexivity.
  - apply chars_inj, E.
Qed.
Lemma show_constraint_inj c c' : positive (c_a c) -> positive (c_b c) -> positive (c_c c) ->
  positive (c_a c') -> positive (c_b c') -> positive (c_c c') -> show_constraint c = show_constraint c' -> c = c'.
Proof.
  intros P1 P2 P3 Q1 Q2 Q3 E. apply (f_equal chars) in E. unfold show_constraint in E.
  assert (NF : forall e, ~ In "="%char (chars (show_factor e))).
  { intro e. unfold show_factor. pose proof (show_expr_not e "="%char ltac:(cbn; intuition discriminate)) as N.
    destruct (2 <=? e_num_terms e)%nat; [|exact N]. rewrite !chars_app, !in_app_iff. cbn. intuition discriminate. }
  rewrite !chars_app in E.
  assert (X : forall a b r, (chars a ++ chars " * " ++ chars b ++ chars " = " ++ r = ((chars a ++ stars ++ chars b) ++ [" "%char]) ++ "="%char :: " "%char :: r)%list).
  { intros a b r. rewrite <- !app_assoc. reflexivity. }
  rewrite !X in E. apply cut_first in E.
  - destruct E as [E1 E2]. injection E2 as E2. apply app_inv_tail in E1.
    apply factors_inj in E1; [|apply factor_show..]. destruct E1 as [EA EB].
    apply chars_inj, show_factor_inj in EA; [|assumption..]. apply chars_inj, show_factor_inj in EB; [|assumption..].
    apply chars_inj, show_expr_inj in E2; [|assumption..]. destruct c, c'; cbn in *; subst. reflexivity.
  - rewrite !in_app_iff. intros [[I|[I|I]]|I]; [exact (NF _ I)|cbn in I; intuition discriminate|exact (NF _ I)|cbn in I; intuition discriminate].
  - rewrite !in_app_iff. intros [[I|[I|I]]|I]; [exact (NF _ I)|cbn in I; intuition discriminate|exact (NF _ I)|cbn in I; intuition discriminate].
Qed.
