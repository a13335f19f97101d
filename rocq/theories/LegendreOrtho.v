(* Orthogonality of the Legendre polynomials. *)
From mathcomp Require Import all_ssreflect ssralg ssrnum poly.
From mathcomp Require Import zify.
From mathcomp.algebra_tactics Require Import ring.
From Verif Require Import Outcome LegendreModel LegendreSpec LegendreProofs.

Set Implicit Arguments.
Unset Strict Implicit.
Unset Printing Implicit Defensive.

Local Open Scope ring_scope.
Import GRing.Theory Num.Theory.

Lemma ode_sol (A : comRingType) (X r0 r1 r2 : A) (n : nat) :
  (X ^+ 2 - 1) * r2 + X * r1 *+ (2 * n.+1) + r0 *+ (n * n.+1) = (X * r1 + r0 *+ n.+1) *+ (2 * n) ->
  (X ^+ 2 - 1) * r2 + X * r1 *+ 2 = r0 *+ (n * n.+1).
Proof.
move=> e.
have -> : (X ^+ 2 - 1) * r2 = (X * r1 + r0 *+ n.+1) *+ (2 * n) - (X * r1 *+ (2 * n.+1) + r0 *+ (n * n.+1)).
  by rewrite -e; ring.
by ring.
Qed.

Lemma leib_u (A : comRingType) (X a b c : A) n :
  X * (X * a + b *+ n.+1) + (X * b + c *+ n) *+ n.+1 - a = (X ^+ 2 - 1) * a + X * b *+ (2 * n.+1) + c *+ (n * n.+1).
Proof. by ring. Qed.

Lemma wronsk (A : comRingType) (X p p1 p2 q q1 q2 : A) n m :
  (X ^+ 2 - 1) * p2 + X * p1 *+ 2 = p *+ (n * n.+1) ->
  (X ^+ 2 - 1) * q2 + X * q1 *+ 2 = q *+ (m * m.+1) ->
  (X *+ 2) * (p * q1 - q * p1) + (X ^+ 2 - 1) * (p1 * q1 + p * q2 - (q1 * p1 + q * p2)) =
  p * q *+ (m * m.+1) - p * q *+ (n * n.+1).
Proof.
move=> e1 e2; rewrite -[p * q *+ (n * _)]mulrnAl -e1 -[p * q *+ (m * _)]mulrnAr -e2; ring.
Qed.

Section Ortho.
Variable F : numFieldType.
Implicit Type p q : {poly F}.
Notation u := ('X^2 - 1 : {poly F}).
Notation P := (legendreP F).
Notation I := (@has_integral F).

Lemma u_deriv n : u * (u ^+ n)^`() = 'X * u ^+ n *+ (2 * n).
Proof.
case: n => [|n]; first by rewrite expr0 derivC mulr0 muln0 mulr0n.
by rewrite deriv_u mulrnAr mulrCA -exprS.
Qed.

Lemma R_ode n : u * (R F n)^`()^`() + 'X * (R F n)^`() *+ 2 = R F n *+ (n * n.+1).
Proof.
apply: ode_sol; rewrite -leib_u /R; set w := u ^+ n.
have : ('X * ('X * w^`()) - w^`())^`(n.+1) = ('X * w *+ (2 * n))^`(n.+1).
  by rewrite -u_deriv -/w mulrBl mul1r ['X^2]expr2 mulrA.
rewrite derivnB derivn_mulX derivn_mulX [n.+1.-1]/= derivn_mulX derivnMn derivn_mulX [n.+1.-1]/= -!derivSn.
have -> : w^`(n.-1.+1) *+ n = w^`(n) *+ n by case: (n) => [|k]; rewrite ?mulr0n.
by rewrite -!derivnS.
Qed.

Lemma P_ode n : u * (P n)^`()^`() + 'X * (P n)^`() *+ 2 = P n *+ (n * n.+1).
Proof.
rewrite /legendreP; set c := _^-1; rewrite -/(R F n) !derivZ -!scalerAr !scalerMnr -scalerDr.
by rewrite R_ode.
Qed.

Lemma has_add p q v w : I p v -> I q w -> I (p + q) (v + w).
Proof.
move=> [a a1 a2] [b b1 b2]; exists (a + b); first by rewrite derivD a1 b1.
by rewrite !hornerD -a2 -b2; ring.
Qed.
Lemma has_scale c p v : I p v -> I (c *: p) (c * v).
Proof.
move=> [a a1 a2]; exists (c *: a); first by rewrite derivZ a1.
by rewrite !hornerZ -a2; ring.
Qed.

Lemma P_orth m n : m <> n -> I (P m * P n) 0.
Proof.
move=> mn.
pose q := u * (P m * (P n)^`() - P n * (P m)^`()).
pose k : F := (n * n.+1)%:R - (m * m.+1)%:R.
have k0 : k != 0.
  rewrite subr_eq0 eqr_nat; apply/eqP => e; apply: mn; nia.
exists (k^-1 *: q).
  rewrite derivZ /q derivM derivB derivXn derivC subr0 /= derivB !derivM.
  have := wronsk (P_ode m) (P_ode n); rewrite expr1 => ->.
  by rewrite -!scaler_nat -scalerBl scalerA mulVf // scale1r.
have z x : x ^+ 2 = 1 -> q.[x] = 0 by move=> h; rewrite hornerM hornerD hornerN hornerC hornerXn h subrr mul0r.
by rewrite !hornerZ !z ?expr1n ?sqrrN ?expr1n // !mulr0 subrr.
Qed.

Lemma P_rec n : P n.+2 = (n.+2%:R)^-1 *: ((2 * n + 3)%N%:R *: ('X * P n.+1) - n.+1%:R *: P n).
Proof.
rewrite /legendreP -!/(R F _) R_rec -!scalerAr !factS !expnS !natrM.
have h1 : n.+2%:R != 0 :> F by rewrite pnatr_eq0.
have h2 : n.+1%:R != 0 :> F by rewrite pnatr_eq0.
have h3 : n`!%:R != 0 :> F by rewrite pnatr_eq0 -lt0n fact_gt0.
have h4 : (2 ^ n)%N%:R != 0 :> F by rewrite pnatr_eq0 -lt0n expn_gt0.
move: (2 ^ n)%N%:R (n`!)%:R h3 h4 => a b h3 h4.
rewrite -scaler_nat -[R F n *+ _]scaler_nat !scalerBr !scalerA.
have e1 : 1 + n%:R = n.+1%:R :> F by rewrite mulrS.
have e2 : 2%:R + n%:R = n.+2%:R :> F by rewrite -natrD.
by congr (_ *: _ - _ *: _); rewrite !natrM ?natrD ?natrM; field; rewrite e1 e2 h1 h2 h3 h4.
Qed.

Lemma XP n : 'X * P n.+1 = ((2 * n + 3)%N%:R)^-1 *: (n.+2%:R *: P n.+2 + n.+1%:R *: P n).
Proof.
rewrite P_rec scalerA divff ?pnatr_eq0 // scale1r subrK scalerA mulVf ?scale1r //.
by rewrite pnatr_eq0; lia.
Qed.

Lemma P_norm n : I (P n * P n) (2%:R / (2 * n + 1)%N%:R).
Proof.
elim: n => [|n ih].
  rewrite legendre0 mulr1; exists 'X; first by rewrite derivX.
  by rewrite !hornerX opprK muln0 add0n divr1.
case: n ih => [_|n ih].
  rewrite legendre1 -expr2; exists (3%:R^-1 *: 'X^3).
    by rewrite derivZ derivXn -scaler_nat scalerA mulVf ?scale1r ?pnatr_eq0.
  by rewrite !hornerZ !hornerXn; field.
have e : P n.+2 * P n.+2 = (n.+2%:R)^-1 *: ((2 * n + 3)%N%:R *: (((2 * n.+1 + 3)%N%:R)^-1 *:
     (n.+3%:R *: (P n.+3 * P n.+1) + n.+2%:R *: (P n.+1 * P n.+1))) + (- n.+1%:R) *: (P n * P n.+2)).
  rewrite {1}P_rec -scalerAl mulrBl -scalerAl -mulrA [P n.+1 * P n.+2]mulrC mulrA XP.
  by rewrite -!scalerAl mulrDl -!scalerAl scaleNr.
rewrite e.
have -> : 2%:R / (2 * n.+2 + 1)%N%:R = (n.+2%:R)^-1 * ((2 * n + 3)%N%:R * (((2 * n.+1 + 3)%N%:R)^-1 *
   (n.+3%:R * 0 + n.+2%:R * (2%:R / (2 * n.+1 + 1)%N%:R))) + (- n.+1%:R) * 0) :> F.
  have -> : (2 * n.+2 + 1 = 2 * n.+1 + 3)%N by lia.
  have -> : (2 * n.+1 + 1 = 2 * n + 3)%N by lia.
  have h1 : n.+2%:R != 0 :> F by rewrite pnatr_eq0.
  have h2 : (2 * n + 3)%N%:R != 0 :> F by rewrite pnatr_eq0; lia.
  have h3 : (2 * n.+1 + 3)%N%:R != 0 :> F by rewrite pnatr_eq0; lia.
  rewrite !mulr0 add0r addr0.
  move: (n.+2%:R) ((2 * n + 3)%N%:R) ((2 * n.+1 + 3)%N%:R) h1 h2 h3 => a b c h1 h2 h3.
  by field; rewrite h1 h2 h3.
apply: has_scale; apply: has_add.
  apply: has_scale; apply: has_scale; apply: has_add; apply: has_scale; last exact: ih.
  by apply: P_orth; lia.
by apply: has_scale; apply: P_orth; lia.
Qed.
End Ortho.
