(** The algebra of twisted Edwards curves: completeness, closure, commutativity, associativity, inverses,
    doubling and multiples. *)
From Coq Require Import ZArith List Bool Arith Lia Znumtheory Setoid Morphisms Ring.
From Verif Require Import Base FieldM FieldP SpecCurve.
Import ListNotations.
Open Scope Z_scope.

(** ** Polynomial identities over the integers.
    [crv x y] is the curve polynomial; the cofactors were computed by polynomial division and are
    checked here by [ring]. *)
Section Identities.
Variables a d x1 y1 x2 y2 x3 y3 : Z.
Definition crv (a d x y : Z) : Z := a * x ^ 2 + y ^ 2 - 1 - d * x ^ 2 * y ^ 2.

Lemma closure_identity :
  a * ((x1 * y2 + x2 * y1) * (1 - d * x1 * x2 * y1 * y2)) ^ 2 + ((y1 * y2 - a * x1 * x2) * (1 + d * x1 * x2 * y1 * y2)) ^ 2
  - ((1 + d * x1 * x2 * y1 * y2) * (1 - d * x1 * x2 * y1 * y2)) ^ 2 - d * ((x1 * y2 + x2 * y1) * (y1 * y2 - a * x1 * x2)) ^ 2 =
  (
    - a^2 * d * x1^2 * x2^4 * y2^2 - 2 * a^2 * x2^4 * y2^2 + a^2 * x2^4 + a * d^2 * x1^2 * x2^4 * y2^4 
    - a * d * x1^2 * x2^2 * y2^4 - a * d * y1^2 * x2^4 * y2^2 + 2 * a * d * x2^4 * y2^4 - 2 * a * x2^2 * y2^4 
    + 4 * a * x2^2 * y2^2 + d^3 * x1^2 * y1^2 * x2^4 * y2^4 + d^2 * y1^2 * x2^4 * y2^4 - d^2 * x2^4 * y2^4 
    - d * y1^2 * x2^2 * y2^4 - 2 * d * x2^2 * y2^2 + y2^4 ) * crv a d x1 y1 +
  (
    a^2 * d * x1^4 * x2^2 * y2^2 + 2 * a^2 * x1^2 * x2^2 * y2^2 - a^2 * x1^2 * x2^2 
    - 2 * a * d * x1^2 * x2^2 * y2^2 - a * x1^2 * y2^2 + 2 * a * y1^2 * x2^2 * y2^2 - a * y1^2 * x2^2 
    - 2 * a * x2^2 * y2^2 + a * x2^2 + d * y1^4 * x2^2 * y2^2 - 2 * d * y1^2 * x2^2 * y2^2 + d * x2^2 * y2^2 
    - y1^2 * y2^2 + y2^2 + 1 ) * crv a d x2 y2.
Proof. unfold crv. ring. Qed.

Let A := x1 * y2 + x2 * y1.
Let B := 1 + d * x1 * x2 * y1 * y2.
Let C := y1 * y2 - a * x1 * x2.
Let D := 1 - d * x1 * x2 * y1 * y2.
Let A' := x2 * y3 + x3 * y2.
Let B' := 1 + d * x2 * x3 * y2 * y3.
Let C' := y2 * y3 - a * x2 * x3.
Let D' := 1 - d * x2 * x3 * y2 * y3.

Lemma assoc_x_identity :
  (A * D * y3 + x3 * C * B) * (B' * D' + d * x1 * A' * y1 * C') - (x1 * C' * B' + A' * D' * y1) * (B * D + d * A * x3 * C * y3) =
  (
    - a^2 * d * x1 * x2^4 * y2 * x3^2 * y3 - a^2 * d * x1 * x2^3 * y2^2 * x3^3 
    + a * d^2 * x1 * x2^4 * y2^3 * x3^2 * y3 + a * d * x1 * x2^3 * y2^2 * x3 
    - a * d * y1 * x2^4 * y2 * x3 * y3^2 + a * d * y1 * x2^2 * y2^3 * x3^3 
    - d^2 * x1 * x2^3 * y2^4 * x3 * y3^2 + d^2 * y1 * x2^4 * y2^3 * x3 * y3^2 
    + d^2 * y1 * x2^3 * y2^4 * x3^2 * y3 + d * x1 * x2^2 * y2^3 * y3^3 - d * x1 * x2^2 * y2^3 * y3 
    + d * x1 * x2 * y2^4 * x3 * y3^2 + d * y1 * x2^3 * y2^2 * y3^3 - d * y1 * x2^3 * y2^2 * y3 
    - d * y1 * x2^2 * y2^3 * x3 - d * y1 * x2 * y2^4 * x3^2 * y3 ) * crv a d x1 y1 +
  (
    - a^3 * x1^3 * x2 * x3^3 + a^2 * d * x1^3 * x2^2 * y2 * x3^2 * y3 + a^2 * d * x1^3 * x2 * x3^3 * y3^2 
    - a^2 * x1^3 * x2 * x3 * y3^2 + a^2 * x1^3 * x2 * x3 + a^2 * x1^3 * y2 * x3^2 * y3 
    + a^2 * x1^2 * y1 * x2 * x3^2 * y3 + a^2 * x1^2 * y1 * y2 * x3^3 - a^2 * x1 * y1^2 * x2 * x3^3 
    + a^2 * x1 * x2 * x3^3 - a * d^2 * x1^2 * y1 * x2^2 * y2 * x3^3 * y3^2 
    - a * d * x1^3 * x2 * y2^2 * x3 * y3^2 - a * d * x1^3 * y2 * x3^2 * y3^3 
    + a * d * x1^2 * y1 * x2^2 * y2 * x3 * y3^2 + a * d * x1^2 * y1 * x2 * y2^2 * x3^2 * y3 
    - a * d * x1^2 * y1 * x2 * x3^2 * y3^3 - a * d * x1^2 * y1 * y2 * x3^3 * y3^2 
    + a * d * x1 * y1^2 * x2^2 * y2 * x3^2 * y3 + a * d * x1 * y1^2 * x2 * x3^3 * y3^2 
    - a * d * x1 * x2^2 * y2 * x3^2 * y3 - a * d * x1 * x2 * x3^3 * y3^2 + a * x1^3 * y2 * y3^3 
    - a * x1^3 * y2 * y3 + a * x1^2 * y1 * x2 * y3^3 - a * x1^2 * y1 * x2 * y3 
    + a * x1^2 * y1 * y2 * x3 * y3^2 - a * x1^2 * y1 * y2 * x3 - a * x1 * y1^2 * x2 * x3 * y3^2 
    + a * x1 * y1^2 * x2 * x3 + a * x1 * y1^2 * y2 * x3^2 * y3 + a * x1 * x2 * x3 * y3^2 - a * x1 * x2 * x3 
    - a * x1 * y2 * x3^2 * y3 + a * y1^3 * x2 * x3^2 * y3 + a * y1^3 * y2 * x3^3 - a * y1 * x2 * x3^2 * y3 
    - a * y1 * y2 * x3^3 - d^2 * x1^2 * y1 * x2 * y2^2 * x3^2 * y3^3 
    - d^2 * x1 * y1^2 * x2^2 * y2 * x3^2 * y3^3 + d^2 * x1 * y1^2 * x2 * y2^2 * x3^3 * y3^2 
    - d * x1 * y1^2 * x2 * y2^2 * x3 * y3^2 - d * x1 * y1^2 * y2 * x3^2 * y3^3 
    + d * x1 * x2 * y2^2 * x3 * y3^2 + d * x1 * y2 * x3^2 * y3^3 + d * y1^3 * x2^2 * y2 * x3 * y3^2 
    + d * y1^3 * x2 * y2^2 * x3^2 * y3 - d * y1^3 * x2 * x3^2 * y3^3 - d * y1^3 * y2 * x3^3 * y3^2 
    - d * y1 * x2^2 * y2 * x3 * y3^2 - d * y1 * x2 * y2^2 * x3^2 * y3 + d * y1 * x2 * x3^2 * y3^3 
    + d * y1 * y2 * x3^3 * y3^2 + x1 * y1^2 * y2 * y3^3 - x1 * y1^2 * y2 * y3 - x1 * y2 * y3^3 + x1 * y2 * y3 
    + y1^3 * x2 * y3^3 - y1^3 * x2 * y3 + y1^3 * y2 * x3 * y3^2 - y1^3 * y2 * x3 - y1 * x2 * y3^3 
    + y1 * x2 * y3 - y1 * y2 * x3 * y3^2 + y1 * y2 * x3 ) * crv a d x2 y2 +
  (
    a^3 * x1^3 * x2^3 * x3 - a^2 * x1^3 * x2^2 * y2 * y3 + a^2 * x1^3 * x2 * y2^2 * x3 - a^2 * x1^3 * x2 * x3 
    - a^2 * x1^2 * y1 * x2^3 * y3 - a^2 * x1^2 * y1 * x2^2 * y2 * x3 + a^2 * x1 * y1^2 * x2^3 * x3 
    - a^2 * x1 * x2^3 * x3 + a * d * x1^2 * y1 * x2^2 * y2 * x3 - a * x1^3 * y2^3 * y3 + a * x1^3 * y2 * y3 
    - a * x1^2 * y1 * x2 * y2^2 * y3 + a * x1^2 * y1 * x2 * y3 - a * x1^2 * y1 * y2^3 * x3 
    + a * x1^2 * y1 * y2 * x3 - a * x1 * y1^2 * x2^2 * y2 * y3 + a * x1 * y1^2 * x2 * y2^2 * x3 
    - a * x1 * y1^2 * x2 * x3 + a * x1 * x2^2 * y2 * y3 - a * x1 * x2 * y2^2 * x3 + a * x1 * x2 * x3 
    - a * y1^3 * x2^3 * y3 - a * y1^3 * x2^2 * y2 * x3 + a * y1 * x2^3 * y3 + a * y1 * x2^2 * y2 * x3 
    + d * x1^2 * y1 * x2 * y2^2 * y3 + d * x1 * y1^2 * x2^2 * y2 * y3 - d * x1 * y1^2 * x2 * y2^2 * x3 
    - x1 * y1^2 * y2^3 * y3 + x1 * y1^2 * y2 * y3 + x1 * y2^3 * y3 - x1 * y2 * y3 - y1^3 * x2 * y2^2 * y3 
    + y1^3 * x2 * y3 - y1^3 * y2^3 * x3 + y1^3 * y2 * x3 + y1 * x2 * y2^2 * y3 - y1 * x2 * y3 + y1 * y2^3 * x3 
    - y1 * y2 * x3 ) * crv a d x3 y3.
Proof. unfold A, B, C, D, A', B', C', D', crv. ring. Qed.

Lemma assoc_y_identity :
  (C * B * y3 - a * A * D * x3) * (B' * D' - d * x1 * A' * y1 * C') - (y1 * C' * B' - a * x1 * A' * D') * (B * D - d * A * x3 * C * y3) =
  (
    a^2 * d * x1 * x2^4 * y2 * x3 * y3^2 - a^2 * d * x1 * x2^2 * y2^3 * x3^3 
    - a^2 * d * y1 * x2^4 * y2 * x3^2 * y3 - a^2 * d * y1 * x2^3 * y2^2 * x3^3 
    - a * d^2 * x1 * x2^4 * y2^3 * x3 * y3^2 - a * d^2 * x1 * x2^3 * y2^4 * x3^2 * y3 
    + a * d^2 * y1 * x2^4 * y2^3 * x3^2 * y3 - a * d * x1 * x2^3 * y2^2 * y3^3 + a * d * x1 * x2^3 * y2^2 * y3 
    + a * d * x1 * x2^2 * y2^3 * x3 + a * d * x1 * x2 * y2^4 * x3^2 * y3 + a * d * y1 * x2^3 * y2^2 * x3 
    - d^2 * y1 * x2^3 * y2^4 * x3 * y3^2 + d * y1 * x2^2 * y2^3 * y3^3 - d * y1 * x2^2 * y2^3 * y3 
    + d * y1 * x2 * y2^4 * x3 * y3^2 ) * crv a d x1 y1 +
  (
    - a^3 * x1^3 * x2 * x3^2 * y3 - a^3 * x1^3 * y2 * x3^3 - a^3 * x1^2 * y1 * x2 * x3^3 
    - a^2 * d * x1^3 * x2^2 * y2 * x3 * y3^2 - a^2 * d * x1^3 * x2 * y2^2 * x3^2 * y3 
    + a^2 * d * x1^3 * x2 * x3^2 * y3^3 + a^2 * d * x1^3 * y2 * x3^3 * y3^2 
    + a^2 * d * x1^2 * y1 * x2^2 * y2 * x3^2 * y3 + a^2 * d * x1^2 * y1 * x2 * x3^3 * y3^2 
    - a^2 * x1^3 * x2 * y3^3 + a^2 * x1^3 * x2 * y3 - a^2 * x1^3 * y2 * x3 * y3^2 + a^2 * x1^3 * y2 * x3 
    - a^2 * x1^2 * y1 * x2 * x3 * y3^2 + a^2 * x1^2 * y1 * x2 * x3 + a^2 * x1^2 * y1 * y2 * x3^2 * y3 
    - a^2 * x1 * y1^2 * x2 * x3^2 * y3 - a^2 * x1 * y1^2 * y2 * x3^3 + a^2 * x1 * x2 * x3^2 * y3 
    + a^2 * x1 * y2 * x3^3 - a^2 * y1^3 * x2 * x3^3 + a^2 * y1 * x2 * x3^3 
    - a * d^2 * x1^2 * y1 * x2^2 * y2 * x3^2 * y3^3 + a * d^2 * x1^2 * y1 * x2 * y2^2 * x3^3 * y3^2 
    + a * d^2 * x1 * y1^2 * x2^2 * y2 * x3^3 * y3^2 - a * d * x1^2 * y1 * x2 * y2^2 * x3 * y3^2 
    - a * d * x1^2 * y1 * y2 * x3^2 * y3^3 - a * d * x1 * y1^2 * x2^2 * y2 * x3 * y3^2 
    - a * d * x1 * y1^2 * x2 * y2^2 * x3^2 * y3 + a * d * x1 * y1^2 * x2 * x3^2 * y3^3 
    + a * d * x1 * y1^2 * y2 * x3^3 * y3^2 + a * d * x1 * x2^2 * y2 * x3 * y3^2 
    + a * d * x1 * x2 * y2^2 * x3^2 * y3 - a * d * x1 * x2 * x3^2 * y3^3 - a * d * x1 * y2 * x3^3 * y3^2 
    + a * d * y1^3 * x2^2 * y2 * x3^2 * y3 + a * d * y1^3 * x2 * x3^3 * y3^2 
    - a * d * y1 * x2^2 * y2 * x3^2 * y3 - a * d * y1 * x2 * x3^3 * y3^2 + a * x1^2 * y1 * y2 * y3^3 
    - a * x1^2 * y1 * y2 * y3 - a * x1 * y1^2 * x2 * y3^3 + a * x1 * y1^2 * x2 * y3 
    - a * x1 * y1^2 * y2 * x3 * y3^2 + a * x1 * y1^2 * y2 * x3 + a * x1 * x2 * y3^3 - a * x1 * x2 * y3 
    + a * x1 * y2 * x3 * y3^2 - a * x1 * y2 * x3 - a * y1^3 * x2 * x3 * y3^2 + a * y1^3 * x2 * x3 
    + a * y1^3 * y2 * x3^2 * y3 + a * y1 * x2 * x3 * y3^2 - a * y1 * x2 * x3 - a * y1 * y2 * x3^2 * y3 
    + d^2 * x1 * y1^2 * x2 * y2^2 * x3^2 * y3^3 - d * y1^3 * x2 * y2^2 * x3 * y3^2 
    - d * y1^3 * y2 * x3^2 * y3^3 + d * y1 * x2 * y2^2 * x3 * y3^2 + d * y1 * y2 * x3^2 * y3^3 
    + y1^3 * y2 * y3^3 - y1^3 * y2 * y3 - y1 * y2 * y3^3 + y1 * y2 * y3 ) * crv a d x2 y2 +
  (
    a^3 * x1^3 * x2^3 * y3 + a^3 * x1^3 * x2^2 * y2 * x3 + a^3 * x1^2 * y1 * x2^3 * x3 
    + a^2 * x1^3 * x2 * y2^2 * y3 - a^2 * x1^3 * x2 * y3 + a^2 * x1^3 * y2^3 * x3 - a^2 * x1^3 * y2 * x3 
    - a^2 * x1^2 * y1 * x2^2 * y2 * y3 + a^2 * x1^2 * y1 * x2 * y2^2 * x3 - a^2 * x1^2 * y1 * x2 * x3 
    + a^2 * x1 * y1^2 * x2^3 * y3 + a^2 * x1 * y1^2 * x2^2 * y2 * x3 - a^2 * x1 * x2^3 * y3 
    - a^2 * x1 * x2^2 * y2 * x3 + a^2 * y1^3 * x2^3 * x3 - a^2 * y1 * x2^3 * x3 
    + a * d * x1^2 * y1 * x2^2 * y2 * y3 - a * d * x1^2 * y1 * x2 * y2^2 * x3 
    - a * d * x1 * y1^2 * x2^2 * y2 * x3 - a * x1^2 * y1 * y2^3 * y3 + a * x1^2 * y1 * y2 * y3 
    + a * x1 * y1^2 * x2 * y2^2 * y3 - a * x1 * y1^2 * x2 * y3 + a * x1 * y1^2 * y2^3 * x3 
    - a * x1 * y1^2 * y2 * x3 - a * x1 * x2 * y2^2 * y3 + a * x1 * x2 * y3 - a * x1 * y2^3 * x3 
    + a * x1 * y2 * x3 - a * y1^3 * x2^2 * y2 * y3 + a * y1^3 * x2 * y2^2 * x3 - a * y1^3 * x2 * x3 
    + a * y1 * x2^2 * y2 * y3 - a * y1 * x2 * y2^2 * x3 + a * y1 * x2 * x3 - d * x1 * y1^2 * x2 * y2^2 * y3 
    - y1^3 * y2^3 * y3 + y1^3 * y2 * y3 + y1 * y2^3 * y3 - y1 * y2 * y3 ) * crv a d x3 y3.
Proof. unfold A, B, C, D, A', B', C', D', crv. ring. Qed.

End Identities.

Section EdwardsGroup.
Context {F : Field} (Hp : prime order) (H2 : 2 < order).
Local Infix "==" := feqm (at level 70).

Lemma ord2 : 2 <= order. Proof using H2. lia. Qed.

Lemma feqm_div x y : x == y <-> (order | x - y).
Proof using H2.
  unfold feqm. split; intro H.
  - apply Z.mod_divide; [lia|]. rewrite Zminus_mod, H, Z.sub_diag, Z.mod_0_l; lia.
  - apply Z.mod_divide in H; [|lia]. replace x with (y + (x - y)) by ring. rewrite Z.add_mod, H, Z.add_0_r, Z.mod_mod; lia.
Qed.

(** u == v because u - v is a combination of known congruences *)
Lemma lc1 l r u v : l == r -> forall c, u - v = c * (l - r) -> u == v.
Proof using H2. intros H c E. rewrite !feqm_div in *. rewrite E. apply Z.divide_mul_r. exact H. Qed.
Lemma lc2 l1 r1 l2 r2 u v : l1 == r1 -> l2 == r2 -> forall c1 c2, u - v = c1 * (l1 - r1) + c2 * (l2 - r2) -> u == v.
Proof using H2. intros A1 A2 c1 c2 E. rewrite !feqm_div in *. rewrite E. apply Z.divide_add_r; apply Z.divide_mul_r; assumption. Qed.
Lemma lc3 l1 r1 l2 r2 l3 r3 u v : l1 == r1 -> l2 == r2 -> l3 == r3 ->
  forall c1 c2 c3, u - v = c1 * (l1 - r1) + c2 * (l2 - r2) + c3 * (l3 - r3) -> u == v.
Proof using H2. intros A1 A2 A3 c1 c2 c3 E. rewrite !feqm_div in *. rewrite E. repeat apply Z.divide_add_r; apply Z.divide_mul_r; assumption. Qed.
Lemma lc5 l1 r1 l2 r2 l3 r3 l4 r4 l5 r5 u v : l1 == r1 -> l2 == r2 -> l3 == r3 -> l4 == r4 -> l5 == r5 ->
  forall c1 c2 c3 c4 c5, u - v = c1 * (l1 - r1) + c2 * (l2 - r2) + c3 * (l3 - r3) + c4 * (l4 - r4) + c5 * (l5 - r5) -> u == v.
Proof using H2. intros A1 A2 A3 A4 A5 c1 c2 c3 c4 c5 E. rewrite !feqm_div in *. rewrite E. repeat apply Z.divide_add_r; apply Z.divide_mul_r; assumption. Qed.
Lemma lc4 l1 r1 l2 r2 l3 r3 l4 r4 u v : l1 == r1 -> l2 == r2 -> l3 == r3 -> l4 == r4 ->
  forall c1 c2 c3 c4, u - v = c1 * (l1 - r1) + c2 * (l2 - r2) + c3 * (l3 - r3) + c4 * (l4 - r4) -> u == v.
Proof using H2. intros A1 A2 A3 A4 c1 c2 c3 c4 E. rewrite !feqm_div in *. rewrite E. repeat apply Z.divide_add_r; apply Z.divide_mul_r; assumption. Qed.

Lemma one_nz : ~ 1 == 0.
Proof using H2. unfold feqm. rewrite Z.mod_1_l, Z.mod_0_l; lia. Qed.
Lemma two_nz : ~ 2 == 0.
Proof using H2. unfold feqm. rewrite Z.mod_small, Z.mod_0_l; lia. Qed.
Lemma mul_nz x y : ~ x == 0 -> ~ y == 0 -> ~ x * y == 0.
Proof using Hp H2. intros Hx Hy H. apply (feqm_integral Hp) in H. tauto. Qed.
Lemma nz_l x y : ~ x * y == 0 -> ~ x == 0.
Proof using H2. intros H E. apply H. apply (lc1 _ _ _ _ E y). ring. Qed.
Lemma nz_r x y : ~ x * y == 0 -> ~ y == 0.
Proof using H2. intros H E. apply H. apply (lc1 _ _ _ _ E x). ring. Qed.
Lemma nz_eq x y : x == y -> ~ y == 0 -> ~ x == 0.
Proof using. intros E H E2. apply H. transitivity x; [symmetry; exact E|exact E2]. Qed.

Lemma zinv_ok x : ~ x == 0 -> x * zinv x == 1.
Proof using Hp H2.
  intro H. pose proof (fermat Hp x H) as Fm.
  transitivity (x ^ (order - 1)); [|exact Fm]. unfold zinv.
  replace (x ^ (order - 1)) with (x * x ^ (order - 2)).
  - apply (lc1 _ _ _ _ (feqm_mod ord2 (x ^ (order - 2))) x). ring.
  - rewrite <- Z.pow_succ_r by lia. f_equal. lia.
Qed.

Lemma cancel c x y : ~ c == 0 -> x * c == y * c -> x == y.
Proof using Hp H2. intros Hc H. apply (feqm_cancel Hp c); [exact Hc|]. rewrite (Z.mul_comm c x), (Z.mul_comm c y). exact H. Qed.

Variables a d : Z.
Hypothesis Hcc : complete_curve a d.

Lemma on_curve_crv P : on_curve a d P -> crv a d (fst P) (snd P) == 0.
Proof using H2. intros [_ H]. unfold crv. apply (lc1 _ _ _ _ H 1). ring. Qed.

Lemma no_exception_aux s e x1 y1 x2 y2 t : s * s == a -> e * e == 1 -> e == d * x1 * x2 * y1 * y2 ->
  crv a d x1 y1 == 0 -> crv a d x2 y2 == 0 -> t == s * x2 + y2 -> ~ t == 0 -> False.
Proof using Hp H2 Hcc.
  intros Hs He Ek C1 C2 Et Ht.
  assert (Hk : ~ d * x1 * x2 * y1 * y2 == 0).
  { apply (nz_eq _ e); [symmetry; exact Ek|]. apply (nz_l e e). apply (nz_eq _ 1 He). exact one_nz. }
  assert (Hv : ~ x1 * y1 == 0).
  { apply (nz_l (x1 * y1) (d * x2 * y2)). apply (nz_eq _ (d * x1 * x2 * y1 * y2)); [|exact Hk].
    replace (x1 * y1 * (d * x2 * y2)) with (d * x1 * x2 * y1 * y2) by ring. reflexivity. }
  assert (E : (s * x1 + e * y1) ^ 2 == d * (x1 * y1) ^ 2 * (s * x2 + y2) ^ 2).
  { apply (lc5 _ _ _ _ _ _ _ _ _ _ _ _ Hs Ek He C1 C2
      (x1 ^ 2 - d * x1 ^ 2 * y1 ^ 2 * x2 ^ 2) (2 * s * x1 * y1 + e + d * x1 * x2 * y1 * y2) (y1 ^ 2 - 1) 1 (- d * x1 ^ 2 * y1 ^ 2)).
    unfold crv. ring. }
  assert (Hn : ~ x1 * y1 * t == 0) by (apply mul_nz; assumption).
  pose proof (zinv_ok _ Hn) as Hi. set (i := zinv (x1 * y1 * t)) in *.
  destruct Hcc as [_ N]. apply (N ((s * x1 + e * y1) * i)). change ((s * x1 + e * y1) * i * ((s * x1 + e * y1) * i) == d).
  apply (lc3 _ _ _ _ _ _ _ _ E Et Hi (i * i) (- (d * (x1 * y1) ^ 2 * i * i * (t + (s * x2 + y2)))) (d * (x1 * y1 * t * i + 1))). ring.
Qed.

Lemma no_exception e P Q : e * e == 1 -> on_curve a d P -> on_curve a d Q -> ~ e == d * fst P * fst Q * snd P * snd Q.
Proof using Hp H2 Hcc.
  intros He HP HQ Ek. apply on_curve_crv in HP, HQ. destruct P as [x1 y1], Q as [x2 y2]. cbn [fst snd] in *.
  pose proof Hcc as [[s Hs] _]. change (s * s == a) in Hs.
  destruct (Z.eq_dec ((s * x2 + y2) mod order) 0) as [Z1|N1].
  - destruct (Z.eq_dec ((- s * x2 + y2) mod order) 0) as [Z2|N2].
    + assert (Hk : ~ d * x1 * x2 * y1 * y2 == 0).
      { apply (nz_eq _ e); [symmetry; exact Ek|]. apply (nz_l e e). apply (nz_eq _ 1 He). exact one_nz. }
      apply nz_r in Hk. apply (mul_nz 2 y2 two_nz Hk).
      assert (A1 : s * x2 + y2 == 0) by (unfold feqm; rewrite Z1, Z.mod_0_l; lia).
      assert (A2 : - s * x2 + y2 == 0) by (unfold feqm; rewrite Z2, Z.mod_0_l; lia).
      apply (lc2 _ _ _ _ _ _ A1 A2 1 1). ring.
    + apply (no_exception_aux (- s) e x1 y1 x2 y2 (- s * x2 + y2)); try assumption; [apply (lc1 _ _ _ _ Hs 1); ring|reflexivity].
  - apply (no_exception_aux s e x1 y1 x2 y2 (s * x2 + y2)); try assumption. reflexivity.
Qed.

Lemma den_x_eq P Q : den_x d P Q == 1 + d * fst P * fst Q * snd P * snd Q.
Proof using H2. apply (feqm_mod ord2). Qed.
Lemma den_y_eq P Q : den_y d P Q == 1 - d * fst P * fst Q * snd P * snd Q.
Proof using H2. apply (feqm_mod ord2). Qed.

Lemma dens_nz P Q : on_curve a d P -> on_curve a d Q -> ~ den_x d P Q == 0 /\ ~ den_y d P Q == 0.
Proof using Hp H2 Hcc.
  intros HP HQ. split; intro E.
  - apply (no_exception (-1) P Q); [reflexivity|assumption|assumption|].
    rewrite den_x_eq in E. apply (lc1 _ _ _ _ E (-1)). ring.
  - apply (no_exception 1 P Q); [reflexivity|assumption|assumption|].
    rewrite den_y_eq in E. apply (lc1 _ _ _ _ E 1). ring.
Qed.

(** what the sum satisfies *)
Lemma add_x P Q : on_curve a d P -> on_curve a d Q ->
  fst (ed_add a d P Q) * (1 + d * fst P * fst Q * snd P * snd Q) == fst P * snd Q + fst Q * snd P.
Proof using Hp H2 Hcc.
  intros HP HQ. destruct (dens_nz P Q HP HQ) as [N _]. pose proof (zinv_ok _ N) as I.
  unfold ed_add. cbn [fst]. set (i := zinv _) in *. set (n := fst P * snd Q + fst Q * snd P).
  apply (lc3 _ _ _ _ _ _ _ _ (feqm_mod ord2 (n * i)) I (den_x_eq P Q) (1 + d * fst P * fst Q * snd P * snd Q) n (- (n * i))). ring.
Qed.
Lemma add_y P Q : on_curve a d P -> on_curve a d Q ->
  snd (ed_add a d P Q) * (1 - d * fst P * fst Q * snd P * snd Q) == snd P * snd Q - a * fst P * fst Q.
Proof using Hp H2 Hcc.
  intros HP HQ. destruct (dens_nz P Q HP HQ) as [_ N]. pose proof (zinv_ok _ N) as I.
  unfold ed_add. cbn [snd]. set (i := zinv _) in *. set (n := snd P * snd Q - a * fst P * fst Q).
  apply (lc3 _ _ _ _ _ _ _ _ (feqm_mod ord2 (n * i)) I (den_y_eq P Q) (1 - d * fst P * fst Q * snd P * snd Q) n (- (n * i))). ring.
Qed.
Lemma add_plane P Q : in_plane (ed_add a d P Q).
Proof using H2. split; apply Z.mod_pos_bound; lia. Qed.
Lemma dens_nz' P Q : on_curve a d P -> on_curve a d Q ->
  ~ 1 + d * fst P * fst Q * snd P * snd Q == 0 /\ ~ 1 - d * fst P * fst Q * snd P * snd Q == 0.
Proof using Hp H2 Hcc. intros HP HQ. rewrite <- den_x_eq, <- den_y_eq. apply dens_nz; assumption. Qed.

Lemma point_eq P Q : in_plane P -> in_plane Q -> fst P == fst Q -> snd P == snd Q -> P = Q.
Proof using H2.
  destruct P as [x y], Q as [x' y']. intros [A1 A2] [A3 A4]. cbn [fst snd] in *. intros E1 E2.
  f_equal; apply feqm_eq; assumption.
Qed.

(** the sum is characterised by the two equations *)
Lemma add_unique P Q R : on_curve a d P -> on_curve a d Q -> in_plane R ->
  fst R * (1 + d * fst P * fst Q * snd P * snd Q) == fst P * snd Q + fst Q * snd P ->
  snd R * (1 - d * fst P * fst Q * snd P * snd Q) == snd P * snd Q - a * fst P * fst Q -> R = ed_add a d P Q.
Proof using Hp H2 Hcc.
  intros HP HQ HR EX EY. destruct (dens_nz' P Q HP HQ) as [NX NY]. apply point_eq; [exact HR|apply add_plane| |].
  - apply (cancel _ _ _ NX). rewrite EX. symmetry. apply add_x; assumption.
  - apply (cancel _ _ _ NY). rewrite EY. symmetry. apply add_y; assumption.
Qed.

Lemma add_on_curve P Q : on_curve a d P -> on_curve a d Q -> on_curve a d (ed_add a d P Q).
Proof using Hp H2 Hcc.
  intros HP HQ. split; [apply add_plane|].
  pose proof (add_x P Q HP HQ) as EX. pose proof (add_y P Q HP HQ) as EY. destruct (dens_nz' P Q HP HQ) as [NX NY].
  apply on_curve_crv in HP, HQ. destruct (ed_add a d P Q) as [x y], P as [x1 y1], Q as [x2 y2]. cbn [fst snd] in *.
  set (B := 1 + d * x1 * x2 * y1 * y2) in *. set (D := 1 - d * x1 * x2 * y1 * y2) in *.
  set (A := x1 * y2 + x2 * y1) in *. set (C := y1 * y2 - a * x1 * x2) in *.
  change (a * x ^ 2 + y ^ 2 == 1 + d * x ^ 2 * y ^ 2).
  assert (NBD : ~ (B * D) ^ 2 == 0) by (replace ((B * D) ^ 2) with (B * D * (B * D)) by ring; repeat apply mul_nz; assumption).
  apply (cancel _ _ _ NBD).
  pose proof (closure_identity a d x1 y1 x2 y2) as ID.
  fold A in ID. fold C in ID. fold B in ID. fold D in ID.
  match type of ID with _ = ?c1 * _ + ?c2 * _ => set (k1 := c1) in *; set (k2 := c2) in * end.
  clearbody k1 k2.
  assert (E0 : a * (A * D) ^ 2 + (C * B) ^ 2 == (B * D) ^ 2 + d * (A * C) ^ 2).
  { apply (lc2 _ _ _ _ _ _ HP HQ k1 k2). rewrite !Z.sub_0_r. rewrite <- ID. ring. }
  clearbody A B C D.
  apply (lc3 _ _ _ _ _ _ _ _ EX EY E0
    (a * D ^ 2 * (x * B + A) - d * (y * D) ^ 2 * (x * B + A))
    (B ^ 2 * (y * D + C) - d * A ^ 2 * (y * D + C)) 1). ring.
Qed.

Lemma zero_on_curve : on_curve a d ed_zero.
Proof using H2. unfold on_curve, in_plane, ed_zero. cbn [fst snd]. split; [lia|]. f_equal. ring. Qed.
Lemma neg_on_curve P : on_curve a d P -> on_curve a d (ed_neg P).
Proof using H2.
  intros HP. pose proof HP as [[P1 P2] _]. apply on_curve_crv in HP. unfold crv in HP. split; [split; [apply Z.mod_pos_bound; lia|exact P2]|].
  destruct P as [x y]. cbn [ed_neg fst snd] in *. pose proof (feqm_mod ord2 (- x)) as E. set (u := (- x) mod order) in *.
  change (a * u ^ 2 + y ^ 2 == 1 + d * u ^ 2 * y ^ 2).
  apply (lc2 _ _ _ _ _ _ HP E 1 ((a - d * y ^ 2) * (u - x))). ring.
Qed.

Lemma add_comm P Q : ed_add a d P Q = ed_add a d Q P.
Proof using.
  unfold ed_add, den_x, den_y. destruct P as [x1 y1], Q as [x2 y2]. cbn [fst snd].
  replace (d * x2 * x1 * y2 * y1) with (d * x1 * x2 * y1 * y2) by ring.
  replace (x2 * y1 + x1 * y2) with (x1 * y2 + x2 * y1) by ring. replace (y2 * y1 - a * x2 * x1) with (y1 * y2 - a * x1 * x2) by ring.
  reflexivity.
Qed.

Lemma add_zero_r P : on_curve a d P -> ed_add a d P ed_zero = P.
Proof using Hp H2 Hcc.
  intros HP. symmetry. apply add_unique; [exact HP|exact zero_on_curve|apply HP| |]; destruct P as [x y]; cbn [ed_zero fst snd];
    match goal with |- ?u == ?v => replace u with v by ring; reflexivity end.
Qed.
Lemma add_zero_l P : on_curve a d P -> ed_add a d ed_zero P = P.
Proof using Hp H2 Hcc. intro HP. rewrite add_comm. apply add_zero_r, HP. Qed.

Lemma add_neg P : on_curve a d P -> ed_add a d P (ed_neg P) = ed_zero.
Proof using Hp H2 Hcc.
  intros HP. symmetry. pose proof (on_curve_crv P HP) as E0. unfold crv in E0.
  apply add_unique; [exact HP|apply neg_on_curve, HP|unfold in_plane, ed_zero; cbn [fst snd]; lia| |]; destruct P as [x y];
    cbn [ed_zero ed_neg fst snd] in *; pose proof (feqm_mod ord2 (- x)) as E; set (u := (- x) mod order) in *.
  - apply (lc1 _ _ _ _ E (- y)). ring.
  - apply (lc2 _ _ _ _ _ _ E E0 (a * x - d * x * y ^ 2) (-1)). ring.
Qed.

Lemma assoc_den A B C D x y e k : x * B == A -> y * D == C -> ~ B == 0 -> ~ D == 0 ->
  ~ 1 + k * e * x * y == 0 -> ~ B * D + k * e * A * C == 0.
Proof using Hp H2.
  intros EX EY NB ND N H. apply (mul_nz _ _ (mul_nz _ _ NB ND) N).
  apply (lc3 _ _ _ _ _ _ _ _ EX EY H (k * e * y * D) (k * e * A) 1). ring.
Qed.

Theorem add_assoc P Q R : on_curve a d P -> on_curve a d Q -> on_curve a d R ->
  ed_add a d (ed_add a d P Q) R = ed_add a d P (ed_add a d Q R).
Proof using Hp H2 Hcc.
  intros HP HQ HR. pose proof (add_on_curve P Q HP HQ) as HPQ. pose proof (add_on_curve Q R HQ HR) as HQR.
  pose proof (add_x P Q HP HQ) as EX1. pose proof (add_y P Q HP HQ) as EY1. destruct (dens_nz' P Q HP HQ) as [NX1 NY1].
  pose proof (add_x Q R HQ HR) as EX2. pose proof (add_y Q R HQ HR) as EY2. destruct (dens_nz' Q R HQ HR) as [NX2 NY2].
  set (PQ := ed_add a d P Q) in *. set (QR := ed_add a d Q R) in *.
  pose proof (add_x PQ R HPQ HR) as EX3. pose proof (add_y PQ R HPQ HR) as EY3. destruct (dens_nz' PQ R HPQ HR) as [NX3 NY3].
  pose proof (add_x P QR HP HQR) as EX4. pose proof (add_y P QR HP HQR) as EY4. destruct (dens_nz' P QR HP HQR) as [NX4 NY4].
  apply point_eq; [apply add_plane|apply add_plane| |].
  - pose proof (on_curve_crv P HP) as C1. pose proof (on_curve_crv Q HQ) as C2. pose proof (on_curve_crv R HR) as C3.
    set (xl := fst (ed_add a d PQ R)) in *. set (xr := fst (ed_add a d P QR)) in *. clearbody xl xr.
    clear EY3 EY4 NY3 NY4 HPQ HQR. clearbody PQ QR.
    destruct P as [x1 y1], Q as [x2 y2], R as [x3 y3], PQ as [u v], QR as [u' v']. cbn [fst snd] in *.
    pose proof (assoc_x_identity a d x1 y1 x2 y2 x3 y3) as ID.
    set (A := x1 * y2 + x2 * y1) in *. set (B := 1 + d * x1 * x2 * y1 * y2) in *.
    set (C := y1 * y2 - a * x1 * x2) in *. set (D := 1 - d * x1 * x2 * y1 * y2) in *.
    set (A' := x2 * y3 + x3 * y2) in *. set (B' := 1 + d * x2 * x3 * y2 * y3) in *.
    set (C' := y2 * y3 - a * x2 * x3) in *. set (D' := 1 - d * x2 * x3 * y2 * y3) in *.
    match type of ID with _ = ?c1 * _ + ?c2 * _ + ?c3 * _ => set (k1 := c1) in *; set (k2 := c2) in *; set (k3 := c3) in * end.
    clearbody k1 k2 k3.
    assert (E0 : (A * D * y3 + x3 * C * B) * (B' * D' + d * x1 * A' * y1 * C') == (x1 * C' * B' + A' * D' * y1) * (B * D + d * A * x3 * C * y3)).
    { apply (lc3 _ _ _ _ _ _ _ _ C1 C2 C3 k1 k2 k3). rewrite !Z.sub_0_r. exact ID. }
    clear C1 C2 C3 ID k1 k2 k3.
    assert (M1 : ~ B * D + d * (x3 * y3) * A * C == 0).
    { apply (assoc_den A B C D u v (x3 * y3) d EX1 EY1 NX1 NY1). intro H. apply NX3. rewrite <- H. replace (1 + d * (x3 * y3) * u * v) with (1 + d * u * x3 * v * y3) by ring. reflexivity. }
    assert (M2 : ~ B' * D' + d * (x1 * y1) * A' * C' == 0).
    { apply (assoc_den A' B' C' D' u' v' (x1 * y1) d EX2 EY2 NX2 NY2). intro H. apply NX4. rewrite <- H. replace (1 + d * (x1 * y1) * u' * v') with (1 + d * x1 * u' * y1 * v') by ring. reflexivity. }
    clearbody A B C D A' B' C' D'.
    assert (L : xl * (B * D + d * (x3 * y3) * A * C) == A * D * y3 + x3 * C * B).
    { apply (lc3 _ _ _ _ _ _ _ _ EX1 EY1 EX3
        (- (xl * d * x3 * y3 * v * D) + D * y3) (- (xl * d * x3 * y3 * A) + B * x3) (B * D)). ring. }
    assert (R : xr * (B' * D' + d * (x1 * y1) * A' * C') == x1 * C' * B' + A' * D' * y1).
    { apply (lc3 _ _ _ _ _ _ _ _ EX2 EY2 EX4
        (- (xr * d * x1 * y1 * v' * D') + D' * y1) (- (xr * d * x1 * y1 * A') + B' * x1) (B' * D')). ring. }
    apply (cancel _ _ _ (mul_nz _ _ M1 M2)).
    apply (lc3 _ _ _ _ _ _ _ _ L R E0 (B' * D' + d * (x1 * y1) * A' * C') (- (B * D + d * (x3 * y3) * A * C)) 1). ring.
  - pose proof (on_curve_crv P HP) as C1. pose proof (on_curve_crv Q HQ) as C2. pose proof (on_curve_crv R HR) as C3.
    set (xl := snd (ed_add a d PQ R)) in *. set (xr := snd (ed_add a d P QR)) in *. clearbody xl xr.
    clear EX3 EX4 NX3 NX4 HPQ HQR. clearbody PQ QR.
    destruct P as [x1 y1], Q as [x2 y2], R as [x3 y3], PQ as [u v], QR as [u' v']. cbn [fst snd] in *.
    pose proof (assoc_y_identity a d x1 y1 x2 y2 x3 y3) as ID.
    set (A := x1 * y2 + x2 * y1) in *. set (B := 1 + d * x1 * x2 * y1 * y2) in *.
    set (C := y1 * y2 - a * x1 * x2) in *. set (D := 1 - d * x1 * x2 * y1 * y2) in *.
    set (A' := x2 * y3 + x3 * y2) in *. set (B' := 1 + d * x2 * x3 * y2 * y3) in *.
    set (C' := y2 * y3 - a * x2 * x3) in *. set (D' := 1 - d * x2 * x3 * y2 * y3) in *.
    match type of ID with _ = ?c1 * _ + ?c2 * _ + ?c3 * _ => set (k1 := c1) in *; set (k2 := c2) in *; set (k3 := c3) in * end.
    clearbody k1 k2 k3.
    assert (E0 : (C * B * y3 - a * A * D * x3) * (B' * D' - d * x1 * A' * y1 * C') == (y1 * C' * B' - a * x1 * A' * D') * (B * D - d * A * x3 * C * y3)).
    { apply (lc3 _ _ _ _ _ _ _ _ C1 C2 C3 k1 k2 k3). rewrite !Z.sub_0_r. exact ID. }
    clear C1 C2 C3 ID k1 k2 k3.
    assert (M1 : ~ B * D + - d * (x3 * y3) * A * C == 0).
    { apply (assoc_den A B C D u v (x3 * y3) (- d) EX1 EY1 NX1 NY1). intro H. apply NY3. rewrite <- H. replace (1 + - d * (x3 * y3) * u * v) with (1 - d * u * x3 * v * y3) by ring. reflexivity. }
    assert (M2 : ~ B' * D' + - d * (x1 * y1) * A' * C' == 0).
    { apply (assoc_den A' B' C' D' u' v' (x1 * y1) (- d) EX2 EY2 NX2 NY2). intro H. apply NY4. rewrite <- H. replace (1 + - d * (x1 * y1) * u' * v') with (1 - d * x1 * u' * y1 * v') by ring. reflexivity. }
    clearbody A B C D A' B' C' D'.
    assert (L : xl * (B * D + - d * (x3 * y3) * A * C) == C * B * y3 - a * A * D * x3).
    { apply (lc3 _ _ _ _ _ _ _ _ EX1 EY1 EY3
        (xl * d * x3 * y3 * v * D - a * D * x3) (xl * d * x3 * y3 * A + B * y3) (B * D)). ring. }
    assert (R : xr * (B' * D' + - d * (x1 * y1) * A' * C') == y1 * C' * B' - a * x1 * A' * D').
    { apply (lc3 _ _ _ _ _ _ _ _ EX2 EY2 EY4
        (xr * d * x1 * y1 * v' * D' - a * x1 * D') (xr * d * x1 * y1 * A' + B' * y1) (B' * D')). ring. }
    apply (cancel _ _ _ (mul_nz _ _ M1 M2)).
    apply (lc3 _ _ _ _ _ _ _ _ L R E0 (B' * D' + - d * (x1 * y1) * A' * C') (- (B * D + - d * (x3 * y3) * A * C)) 1). ring.
Qed.

(** ** multiples *)
Lemma mul_on_curve n P : on_curve a d P -> on_curve a d (ed_mul a d n P).
Proof using Hp H2 Hcc. intro HP. induction n as [|n IH]; cbn [ed_mul]; [exact zero_on_curve|]. apply add_on_curve; assumption. Qed.
Lemma mul_add n m P : on_curve a d P -> ed_mul a d (n + m) P = ed_add a d (ed_mul a d n P) (ed_mul a d m P).
Proof using Hp H2 Hcc.
  intro HP. induction n as [|n IH]; cbn [Nat.add ed_mul]; [symmetry; apply add_zero_l, mul_on_curve, HP|].
  rewrite IH. symmetry. apply add_assoc; [exact HP|apply mul_on_curve, HP|apply mul_on_curve, HP].
Qed.
Lemma mul_mul n m P : on_curve a d P -> ed_mul a d (n * m) P = ed_mul a d n (ed_mul a d m P).
Proof using Hp H2 Hcc.
  intro HP. induction n as [|n IH]; cbn [Nat.mul ed_mul]; [reflexivity|]. rewrite mul_add by exact HP. rewrite IH. reflexivity.
Qed.
Lemma mul_1 P : on_curve a d P -> ed_mul a d 1 P = P.
Proof using Hp H2 Hcc. intro HP. cbn [ed_mul]. apply add_zero_r, HP. Qed.

(** doubling formula *)
Lemma double_dens P : on_curve a d P ->
  ~ a * fst P ^ 2 + snd P ^ 2 == 0 /\ ~ 2 - a * fst P ^ 2 - snd P ^ 2 == 0.
Proof using Hp H2 Hcc.
  intro HP. destruct (dens_nz' P P HP HP) as [NX NY]. apply on_curve_crv in HP. unfold crv in HP. destruct P as [x y]. cbn [fst snd] in *.
  split; intro E; [apply NX|apply NY].
  - apply (lc2 _ _ _ _ _ _ HP E (-1) 1). ring.
  - apply (lc2 _ _ _ _ _ _ HP E 1 1). ring.
Qed.
Lemma double_eq P R : on_curve a d P -> in_plane R ->
  fst R * (a * fst P ^ 2 + snd P ^ 2) == 2 * fst P * snd P ->
  snd R * (2 - a * fst P ^ 2 - snd P ^ 2) == snd P ^ 2 - a * fst P ^ 2 -> R = ed_add a d P P.
Proof using Hp H2 Hcc.
  intros HP HR EX EY. apply add_unique; try assumption; apply on_curve_crv in HP; unfold crv in HP; destruct P as [x y], R as [u v]; cbn [fst snd] in *.
  - apply (lc2 _ _ _ _ _ _ HP EX (- u) 1). ring.
  - apply (lc2 _ _ _ _ _ _ HP EY v 1). ring.
Qed.

End EdwardsGroup.
