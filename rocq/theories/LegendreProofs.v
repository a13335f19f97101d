(* Rodrigues' formula satisfies the recurrence of legendre.h. *)
From mathcomp Require Import all_ssreflect ssralg ssrnum poly.
From mathcomp Require Import zify.
From mathcomp.algebra_tactics Require Import ring.
From Verif Require Import Outcome LegendreModel LegendreSpec.

Set Implicit Arguments.
Unset Strict Implicit.
Unset Printing Implicit Defensive.

Local Open Scope ring_scope.
Import GRing.Theory Num.Theory.

Lemma sq_u (A : comRingType) (X v : A) : X * X * v = (X ^+ 2 - 1) * v + v.
Proof. by ring. Qed.

Section Rodrigues.
Variable F : numFieldType.
Implicit Type p : {poly F}.
Notation u := ('X^2 - 1 : {poly F}).

Definition R n : {poly F} := (u ^+ n)^`(n).
Definition S n : {poly F} := (u ^+ n)^`(n.-1).

Lemma derivn_mulX n p : ('X * p)^`(n) = 'X * p^`(n) + p^`(n.-1) *+ n.
Proof.
elim: n => [|n ih]; first by rewrite !derivn0 mulr0n addr0.
rewrite derivnS ih derivD derivM derivX mul1r derivMn -!derivnS.
case: n {ih} => [|n] /=; first by rewrite !mulr0n !addr0 mulr1n addrC.
by rewrite [in RHS]mulrS addrA [_ + 'X * _]addrC.
Qed.

Lemma deriv_u n : (u ^+ n.+1)^`() = 'X * u ^+ n *+ (2 * n.+1).
Proof.
rewrite deriv_exp derivB derivC subr0 derivXn /= expr1.
by rewrite mulrnAl -mulrnA.
Qed.

Lemma R_succ n : R n.+1 = ('X * R n + S n *+ n) *+ (2 * n.+1).
Proof.
by rewrite /R derivSn deriv_u derivnMn derivn_mulX.
Qed.

Lemma deriv2_u n : (u ^+ n.+2)^`(2) = u ^+ n.+1 *+ (2 * n.+2 * (2 * n + 3)) + u ^+ n *+ (4 * n.+1 * n.+2).
Proof.
rewrite derivSn derivn1 deriv_u derivMn derivM derivX mul1r deriv_u.
have -> : 'X * ('X * u ^+ n *+ (2 * n.+1)) = (u ^+ n.+1 + u ^+ n) *+ (2 * n.+1).
  by rewrite mulrnAr mulrA [u ^+ n.+1]exprS; congr (_ *+ _); exact: sq_u.
by rewrite mulrnDl addrA -mulrS mulrnDl -!mulrnA; congr (_ *+ _ + _ *+ _); lia.
Qed.

Lemma derivn_comp n m p : p^`(m)^`(n) = p^`(n + m).
Proof. by rewrite /derivn iterD. Qed.

Lemma R_succ2 n : R n.+2 = S n.+1 *+ (2 * n.+2 * (2 * n + 3)) + R n *+ (4 * n.+1 * n.+2).
Proof. by rewrite /R /S -addn2 -derivn_comp addn2 deriv2_u derivnD !derivnMn. Qed.

Lemma elim_S (Y r s q : {poly F}) n : Y = (r + s *+ n.+1) *+ (2 * n.+2) ->
  Y = s *+ (2 * n.+2 * (2 * n + 3)) + q *+ (4 * n.+1 * n.+2) ->
  Y *+ n.+2 = (r *+ (2 * (2 * n + 3)) - q *+ (4 * n.+1 * n.+1)) *+ n.+2.
Proof.
move=> e1 e2.
have -> : Y *+ n.+2 = Y *+ (2 * n + 3) - Y *+ n.+1.
  by rewrite -mulrnBr; [congr (_ *+ _); lia|lia].
by rewrite {1}e1 {1}e2; ring.
Qed.

Lemma R_rec n : R n.+2 = 'X * R n.+1 *+ (2 * (2 * n + 3)) - R n *+ (4 * n.+1 * n.+1).
Proof.
have e := elim_S (R_succ n.+1) (R_succ2 n).
have nz : n.+2%:R != 0 :> F by rewrite pnatr_eq0.
by apply: (scalerI nz); rewrite !scaler_nat.
Qed.

Lemma legendre0 : legendreP F 0 = 1.
Proof. by rewrite /legendreP derivn0 expr0 fact0 muln1 expn0 invr1 scale1r. Qed.
Lemma legendre1 : legendreP F 1 = 'X.
Proof.
rewrite /legendreP derivn1 expr1 derivB derivC subr0 derivXn /= expr1 -scaler_nat scalerA.
by rewrite mulVf ?scale1r // pnatr_eq0.
Qed.

Lemma legendre_rec n (x : F) : (legendreP F n.+2).[x] =
  ((2 * n.+2 - 1)%N%:R * x * (legendreP F n.+1).[x] - (n.+2 - 1)%N%:R * (legendreP F n).[x]) * (1 / n.+2%:R).
Proof.
rewrite /legendreP !hornerZ -!/(R _) R_rec hornerD hornerN !hornerMn hornerM hornerX.
rewrite !factS !expnS; have -> : (2 * n.+2 - 1 = 2 * n + 3)%N by lia.
have -> : (n.+2 - 1 = n.+1)%N by lia.
move: (R n.+1).[x] (R n).[x] => a b.
have h1 : n.+2%:R != 0 :> F by rewrite pnatr_eq0.
have h2 : n.+1%:R != 0 :> F by rewrite pnatr_eq0.
have h3 : n`!%:R != 0 :> F by rewrite pnatr_eq0 -lt0n fact_gt0.
have h4 : (2 ^ n)%N%:R != 0 :> F by rewrite pnatr_eq0 -lt0n expn_gt0.
rewrite !natrM; move: (2 ^ n)%N%:R (n`!)%:R h3 h4 => p q h3 h4.
rewrite -[x * a *+ _]mulr_natr -[b *+ _]mulr_natr !natrM natrD natrM.
have e1 : 1 + n%:R = n.+1%:R :> F by rewrite mulrS.
have e2 : 2%:R + n%:R = n.+2%:R :> F by rewrite -natrD.
by field; rewrite e1 e2 h1 h2 h3 h4.
Qed.
End Rodrigues.

(* loops and vectors *)
Lemma oloopP (S : Type) (body : nat -> S -> outcome S) (Inv : nat -> S -> Prop) a k s :
  Inv a s ->
  (forall i s, (a <= i < a + k)%N -> Inv i s -> exists2 s', body i s = Ok s' & Inv i.+1 s') ->
  exists2 s', oloop body a k s = Ok s' & Inv (a + k)%N s'.
Proof.
elim: k a s => [|k ih] a s h0 hs /=; first by exists s; rewrite ?addn0.
have [|s' -> h'] := hs a s _ h0; first by lia.
rewrite /= -addSnnS; apply: ih => // i t hi; apply: hs; move: hi; clear; lia.
Qed.

Lemma put_ok (T : Type) (d : T) (v : seq T) i x : (i < size v)%N ->
  exists2 v', put v i x = Ok v' & size v' = size v /\ forall j, nth d v' j = if j == i then x else nth d v j.
Proof.
move=> hi; rewrite /put hi; exists (set_nth x v i x) => //.
have sz : size (set_nth x v i x) = size v by rewrite size_set_nth; apply/maxn_idPr.
split=> // j; case: (ltnP j (size v)) => hj.
  by rewrite (set_nth_default x) ?sz // nth_set_nth /=; case: eqP => // _; exact: set_nth_default.
rewrite !nth_default ?sz //; case: eqP => // e; move: hi hj; rewrite e; clear; lia.
Qed.

Lemma get_ok (T : Type) (d : T) (v : seq T) i : (i < size v)%N -> get v i = Ok (nth d v i).
Proof.
rewrite /get; elim: v i => [|x v ih] [|i] //= h; exact: ih.
Qed.

Section Runs.
Variable F : numFieldType.

Lemma legendre_newP (sqrt : F -> F) n : (0 < n)%N -> exists2 t, legendre_new sqrt n = Ok t &
  [/\ lg_n t = n, size (lg_inv t) = n, size (lg_sqrt t) = n,
      (forall l, (0 < l < n)%N -> nth 0 (lg_inv t) l = 1 / l%:R) &
      (forall l, (l < n)%N -> nth 0 (lg_sqrt t) l = if l == 0%N then 1 else sqrt (2%:R * l%:R + 1))].
Proof.
move=> n0; rewrite /legendre_new.
have [|sq -> [s1 s2]] := @put_ok _ 0 (nseq n 0) 0 (1 : F); first by rewrite size_nseq.
rewrite /= in s2 *; rewrite size_nseq in s1.
have [||s e [h1 h2 h3 h4]] := @oloopP _ (fun l (s : seq F * seq F) =>
           obind (put s.1 l (1 / l%:R)) (fun inv =>
           obind (put s.2 l (sqrt (2%:R * l%:R + 1))) (fun sq => Ok (inv, sq))))
  (fun i s => [/\ size s.1 = n, size s.2 = n,
     (forall l, (0 < l < i)%N -> nth 0 s.1 l = 1 / l%:R) &
     (forall l, (l < i)%N -> nth 0 s.2 l = if l == 0%N then 1 else sqrt (2%:R * l%:R + 1))]) 1 n.-1 (nseq n 0, sq).
- split; rewrite ?size_nseq //=; first by move=> l; lia.
  by move=> l; rewrite ltnS leqn0 => /eqP ->; rewrite s2.
- move=> i s hi [h1 h2 h3 h4].
  have li : (i < n)%N by move: hi; clear; lia.
  have [|a -> [a1 a2]] := @put_ok _ 0 s.1 i (1 / i%:R); first by rewrite h1.
  have [|b /= -> [b1 b2]] := @put_ok _ 0 s.2 i (sqrt (2%:R * i%:R + 1)); first by rewrite h2.
  exists (a, b) => //; split; rewrite /= ?a1 ?b1 // => l.
    by move=> hl; rewrite a2; case: eqP => [->//|/eqP ne]; apply: h3; move: hl ne; clear; lia.
  rewrite ltnS leq_eqVlt b2; case: eqP => [->//|_ /= hl]; last exact: h4.
  by have -> : (i == 0%N) = false by move: hi; clear; lia.
rewrite e; exists (Legendre n s.1 s.2) => //; split=> //= l hl; [apply: h3|apply: h4]; move: hl; clear; lia.
Qed.

Lemma compute_legendreP (t : legendre F) n x val :
  lg_n t = n -> size (lg_inv t) = n -> (forall l, (0 < l < n)%N -> nth 0 (lg_inv t) l = 1 / l%:R) ->
  (n <= size val)%N ->
  exists2 val', compute_legendre t x val = Ok val' &
    size val' = size val /\ forall l, nth 0 val' l = if (l < n)%N then (legendreP F l).[x] else nth 0 val l.
Proof.
move=> tn ts ti sv; rewrite /compute_legendre tn.
apply: (oloopP (Inv := fun i v => size v = size val /\ forall l, nth 0 v l = if (l < i)%N then (legendreP F l).[x] else nth 0 val l)) => //.
move=> i v; rewrite add0n => /andP[_ hi] [h1 h2].
have li : (i < size v)%N by rewrite h1; exact: leq_trans sv.
have step y : y = (legendreP F i).[x] -> exists2 s', put v i y = Ok s' & size s' = size val /\
    forall l, nth 0 s' l = if (l < i.+1)%N then (legendreP F l).[x] else nth 0 val l.
  move=> ey; have [s' -> [p1 p2]] := put_ok 0 y li; exists s' => //; split; first by rewrite p1.
  by move=> l; rewrite p2 ltnS leq_eqVlt; case: eqP => [->//|_ /=]; rewrite h2.
case: i hi li h2 step => [|[|i]] hi li h2 step /=.
- by apply: step; rewrite legendre0 hornerC.
- by apply: step; rewrite legendre1 hornerX.
rewrite !(get_ok 0) /= ?ts ?(ltnW li) ?(ltnW (ltnW li)) //; apply: step.
by rewrite !h2 !ltnS leqnn ltnW // legendre_rec ti.
Qed.

Definition ent (val : seq (seq F)) l ix := nth 0 (nth [::] val l) ix.
Definition shape (val : seq (seq F)) := [seq size r | r <- val].

Lemma put2_ok val l ix v : (l < size val)%N -> (ix < nth 0 (shape val) l)%N ->
  exists2 val', put2 val l ix v = Ok val' & shape val' = shape val /\
    forall l' ix', ent val' l' ix' = if (l' == l) && (ix' == ix) then v else ent val l' ix'.
Proof.
move=> hl; rewrite /shape (nth_map [::]) // => hx; rewrite /put2 (get_ok [::]) //=.
have [r -> [r1 r2]] := put_ok 0 v hx.
have [val' /= -> [v1 v2]] := put_ok [::] r hl; exists val' => //; split.
  apply: (@eq_from_nth _ 0%N); rewrite !size_map // => i hi.
  by rewrite !(nth_map [::]) -?v1 // v2; case: eqP => [->|].
by move=> l' ix'; rewrite /ent v2; case: eqP => [->|] //=; rewrite r2.
Qed.

Lemma compute_legendre_vecP (t : legendre F) n xval val :
  lg_n t = n -> size (lg_inv t) = n -> (forall l, (0 < l < n)%N -> nth 0 (lg_inv t) l = 1 / l%:R) ->
  (n <= size val)%N -> (forall l, (l < n)%N -> (size xval <= size (nth [::] val l))%N) ->
  exists2 val', compute_legendre_vec t xval val = Ok val' &
    shape val' = shape val /\ forall l ix, ent val' l ix =
      if (l < n)%N && (ix < size xval)%N then (legendreP F l).[nth 0 xval ix] else ent val l ix.
Proof.
move=> tn ts ti sv sr; rewrite /compute_legendre_vec tn; set nx := size xval.
apply: (oloopP (Inv := fun i v => shape v = shape val /\ forall l ix, ent v l ix =
  if (l < i)%N && (ix < nx)%N then (legendreP F l).[nth 0 xval ix] else ent val l ix)) => // i v.
rewrite add0n => /andP[_ hi] [h1 h2].
have row body : (forall ix w, (ix < nx)%N -> shape w = shape val ->
      (forall l j, (l < i)%N -> (j < nx)%N -> ent w l j = (legendreP F l).[nth 0 xval j]) ->
      body ix w = put2 w i ix (legendreP F i).[nth 0 xval ix]) ->
    exists2 s', oloop body 0 nx v = Ok s' & shape s' = shape val /\ forall l ix, ent s' l ix =
      if (l < i.+1)%N && (ix < nx)%N then (legendreP F l).[nth 0 xval ix] else ent val l ix.
  move=> hb.
  have [//||s' e [k1 k2]] := @oloopP _ body (fun m w => shape w = shape val /\ forall l ix, ent w l ix =
    if (l == i) && (ix < m)%N then (legendreP F i).[nth 0 xval ix] else ent v l ix) 0 nx v.
  - by split=> // l ix; rewrite ltn0 andbF.
  - move=> ix w; rewrite add0n => /andP[_ hx] [w1 w2]; rewrite hb //.
    + have [||w' e [p1 p2]] := @put2_ok w i ix (legendreP F i).[nth 0 xval ix].
      * by rewrite -(size_map size) -/(shape w) w1 size_map; exact: leq_trans sv.
      * by rewrite w1 (nth_map [::]) ?(leq_trans hx (sr _ hi)) //; exact: leq_trans sv.
      exists w' => //; split; first by rewrite p1.
      move=> l j; rewrite p2 w2 ltnS (leq_eqVlt j); case: (eqVneq l i) => [_|_] //=.
      by case: eqP => [->|].
    + move=> l j hl hj; rewrite w2 h2 hl hj.
      by have -> : (l == i) = false by move: hl; clear; lia.
  exists s' => //; split=> // l ix; rewrite k2 h2 add0n ltnS (leq_eqVlt l).
  by case: (eqVneq l i) => [->|_] //=; rewrite ltnn; case: (ix < nx)%N.
case: i hi h2 row => [|[|i]] hi h2 row /=.
- by apply: row => ix w _ _ _; rewrite legendre0 hornerC.
- by apply: row => ix w hx _ _; rewrite (get_ok 0) //= legendre1 hornerX.
rewrite (get_ok 0) ?ts //=; apply: row => ix w hx sw hw.
rewrite (get_ok 0) //= /get2.
have sz l : (l < n)%N -> (l < size w)%N /\ (ix < size (nth [::] w l))%N.
  move=> ln; have lw : (l < size w)%N.
    by rewrite -(size_map size) -/(shape w) sw size_map; exact: leq_trans sv.
  split=> //; rewrite -(nth_map [::] 0%N size) // -/(shape w) sw (nth_map [::]) ?(leq_trans hx (sr _ ln)) //.
  exact: leq_trans sv.
have [s1 s1'] := sz i.+1 (ltnW hi); have [s0 s0'] := sz i (ltnW (ltnW hi)).
rewrite !(get_ok [::]) //= !(get_ok 0) //= -!/(ent _ _ _) !hw // legendre_rec ti //.
Qed.
End Runs.
