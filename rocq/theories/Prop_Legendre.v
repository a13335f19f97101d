(* Property theorems: C46 (Legendre polynomials). *)
From mathcomp Require Import all_ssreflect ssralg ssrnum poly ssrint rat.
From mathcomp Require Import zify.
From mathcomp.algebra_tactics Require Import ring.
From Verif Require Import Outcome LegendreModel LegendreSpec LegendreProofs LegendreOrtho.

Set Implicit Arguments.
Unset Strict Implicit.
Unset Printing Implicit Defensive.

Local Open Scope ring_scope.
Import GRing.Theory Num.Theory.

(* ------------------------------------------------------------------ C46 *)

(* The scalar evaluator of a transformer for n orders fills the first n entries with the
   values of the Legendre polynomials, whatever they held, and touches nothing else. *)
Theorem C46_scalar :
  forall (F : numFieldType) (sqrt : F -> F) (n : nat), (0 < n)%N ->
  exists t, legendre_new sqrt n = Ok t /\
  forall (x : F) (val : seq F), (n <= size val)%N ->
  exists val', [/\ compute_legendre t x val = Ok val', size val' = size val &
    forall l, nth 0 val' l = if (l < n)%N then (legendreP F l).[x] else nth 0 val l].
Proof.
move=> F sqrt n n0; have [t e [h1 h2 _ h3 _]] := legendre_newP sqrt n0.
exists t; split=> // x val sv.
by have [v' ev [s1 s2]] := compute_legendreP x h1 h2 h3 sv; exists v'.
Qed.
Print Assumptions C46_scalar.

(* The vector evaluator does the same at every point of the list, row by row. *)
Theorem C46_vector :
  forall (F : numFieldType) (sqrt : F -> F) (n : nat), (0 < n)%N ->
  exists t, legendre_new sqrt n = Ok t /\
  forall (xval : seq F) (val : seq (seq F)),
  (n <= size val)%N -> (forall l, (l < n)%N -> (size xval <= size (nth [::] val l))%N) ->
  exists val', [/\ compute_legendre_vec t xval val = Ok val', [seq size r | r <- val'] = [seq size r | r <- val] &
    forall l ix, nth 0 (nth [::] val' l) ix =
      if (l < n)%N && (ix < size xval)%N then (legendreP F l).[nth 0 xval ix] else nth 0 (nth [::] val l) ix].
Proof.
move=> F sqrt n n0; have [t e [h1 h2 _ h3 _]] := legendre_newP sqrt n0.
exists t; split=> // xval val sv sr.
by have [v' ev [s1 s2]] := compute_legendre_vecP h1 h2 h3 sv sr; exists v'.
Qed.
Print Assumptions C46_vector.

(* An integral has one value only. *)
Lemma has_integral_unique (F : numFieldType) (p : {poly F}) v w : has_integral p v -> has_integral p w -> v = w.
Proof.
move=> [a a1 <-] [b b1 <-].
have : (a - b)^`() = 0 by rewrite derivB a1 b1 subrr.
have c (q : {poly F}) : q^`() = 0 -> q = (q`_0)%:P.
  move=> h; apply/polyP => -[|i]; rewrite coefC //=.
  have := congr1 (fun r : {poly F} => r`_i) h; rewrite coef_deriv coef0 => /eqP.
  by rewrite mulrn_eq0 /= => /eqP.
move/c => e; have h x : a.[x] = b.[x] + (a - b)`_0.
  by have := congr1 (fun r : {poly F} => r.[x]) e; rewrite hornerD hornerN hornerC => <-; rewrite addrC subrK.
by rewrite !h opprD addrACA subrr addr0.
Qed.

(* The factors of get_sqrt_2l_1 normalise these polynomials: the products of the scaled
   polynomials integrate over [-1, 1] to 2 or 0, so that the scaled polynomials in
   x = 2 tau / beta - 1 are orthonormal for the mean over the imaginary times. *)
Theorem C46_orthonormal :
  forall (F : numFieldType) (sqrt : F -> F) (n : nat), (0 < n)%N ->
  (forall y, 0 <= y -> sqrt y ^+ 2 = y) ->
  exists t, legendre_new sqrt n = Ok t /\
  size (lg_sqrt t) = n /\
  forall l m v, (l < n)%N -> (m < n)%N ->
    has_integral ((nth 0 (lg_sqrt t) l *: legendreP F l) * (nth 0 (lg_sqrt t) m *: legendreP F m)) v <->
    v = (if l == m then 2%:R else 0).
Proof.
move=> F sqrt n n0 hs; have [t e [h1 _ h2 _ h3]] := legendre_newP sqrt n0.
exists t; split=> //; split=> // l m v ll lm.
have hi : has_integral ((nth 0 (lg_sqrt t) l *: legendreP F l) * (nth 0 (lg_sqrt t) m *: legendreP F m))
    (if l == m then 2%:R else 0).
  rewrite -scalerAl -scalerAr scalerA; case: (eqVneq l m) => [<-|/eqP ne]; last first.
    by rewrite -[X in has_integral _ X](mulr0 (nth 0 (lg_sqrt t) l * nth 0 (lg_sqrt t) m)); apply: has_scale; exact: P_orth.
  have sq : nth 0 (lg_sqrt t) l * nth 0 (lg_sqrt t) l = (2 * l + 1)%N%:R.
    rewrite h3 //; case: eqP => [->|_]; first by rewrite mulr1.
    have -> : 2%:R * l%:R + 1 = (2 * l + 1)%N%:R :> F by rewrite natrD natrM.
    by rewrite -expr2 hs // ler0n.
  rewrite sq; have -> : 2%:R = (2 * l + 1)%N%:R * (2%:R / (2 * l + 1)%N%:R) :> F.
    by rewrite mulrCA divff ?mulr1 // pnatr_eq0; lia.
  by apply: has_scale; exact: P_norm.
by split=> [h|->] //; exact: has_integral_unique hi.
Qed.
Print Assumptions C46_orthonormal.

(* For n_legendre = 0 the constructor writes sqrt_2l_1[0] of an empty vector. *)
Theorem C46_no_orders :
  forall (F : fieldType) (sqrt : F -> F) (n : nat), legendre_new sqrt n = UB <-> n = 0%N.
Proof.
move=> F sqrt [|n]; first by [].
split=> // h; exfalso; move: h; rewrite /legendre_new /=.
set body := (fun _ _ => _).
suff H k a (s : seq F * seq F) : size s.1 = size s.2 -> (a + k = size s.1)%N -> oloop body a k s <> UB.
  by case e : (oloop body 1 n _) => [s| | |] //=; move=> _; apply: (H _ _ _ _ _ e); rewrite /= ?size_nseq.
elim: k a s => [//|k ih] a s hs ha /=; rewrite /body.
have [|v1 -> [s1 _]] := @put_ok _ 0 s.1 a (1 / a%:R); first by rewrite -ha; lia.
have [|v2 /= -> [s2 _]] := @put_ok _ 0 s.2 a (sqrt (2%:R * a%:R + 1)); first by rewrite -hs -ha; lia.
by apply: ih; rewrite /= ?s1 ?s2 // -ha; lia.
Qed.
Print Assumptions C46_no_orders.

(* ------------------------------------------------------------------ examples *)

(* four orders at x = 1/2, into a vector with five entries: 1, 1/2, -1/8, -7/16 *)
Example C46_ex :
  match legendre_new (id : rat -> rat) 4 with
  | Ok t => match compute_legendre t (1 / 2%:R) [:: 7%:R; 7%:R; 7%:R; 7%:R; 7%:R] with
            | Ok v => v == [:: 1; 1 / 2%:R; - 1 / 8%:R; - 7%:R / 16%:R; 7%:R]
            | _ => false end
  | _ => false end.
Proof. by vm_compute. Qed.

(* two points *)
Example C46_ex_vec :
  match legendre_new (id : rat -> rat) 3 with
  | Ok t => match compute_legendre_vec t [:: 1; 1 / 2%:R] [:: [:: 7%:R; 7%:R]; [:: 7%:R; 7%:R]; [:: 7%:R; 7%:R; 9%:R]] with
            | Ok v => v == [:: [:: 1; 1]; [:: 1; 1 / 2%:R]; [:: 1; - 1 / 8%:R; 9%:R]]
            | _ => false end
  | _ => false end.
Proof. by vm_compute. Qed.

(* the square root of a real closed field meets the hypothesis of C46_orthonormal *)
Example C46_ex_sqrt : forall (F : rcfType) (y : F), 0 <= y -> Num.sqrt y ^+ 2 = y.
Proof. by move=> F y; exact: sqr_sqrtr. Qed.
