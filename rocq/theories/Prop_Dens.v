(* Property theorems: C48 (densities and density correlations), C63 (the same with complex
   matrices). *)
From mathcomp Require Import all_ssreflect order ssralg ssrnum ssrint rat matrix algC.
From mathcomp Require Import zify.
From mathcomp.algebra_tactics Require Import ring.
From Verif Require Import Outcome MatSpec FormulaProofs BinModel DensModel DensSpec DensProofs.

Set Implicit Arguments.
Unset Strict Implicit.
Unset Printing Implicit Defensive.

Local Open Scope ring_scope.
Import Order.TTheory GRing.Theory Num.Theory.

(* A measured configuration: the time tau, the sign, and for each flavor its operators, the
   matrix M of the program and the matrix whose determinant is the weight. *)
Definition meas (C : numClosedFieldType) := (rat * (C * seq (flavor_data C * (nat -> nat -> C))))%type.
(* what the program sees of it *)
Definition seen (C : numClosedFieldType) (m : meas C) : rat * (C * seq (flavor_data C)) :=
  (m.1, (m.2.1, [seq x.1 | x <- m.2.2])).
Definition no_flavor (C : numClosedFieldType) : flavor_data C * (nat -> nat -> C) := (FlavorData [::] [::] (fun _ _ => 0), fun _ _ => 0).
(* the configuration of flavor z as the specification sees it *)
Definition confs (C : numClosedFieldType) (m : meas C) (z : nat) : conf C :=
  let x := nth (no_flavor C) m.2.2 z in Conf (fd_annih x.1) (fd_creat x.1) x.2.
(* M is the inverse of the weight matrix *)
Definition inverted (C : numClosedFieldType) (m : meas C) : Prop :=
  forall z, (z < size m.2.2)%N -> let x := nth (no_flavor C) m.2.2 z in
    inverse_of (size (fd_annih x.1)) x.2 (fd_M x.1).
(* M is a real matrix and the sign is real *)
Definition real_valued (C : numClosedFieldType) (m : meas C) : Prop :=
  m.2.1 \is Num.real /\
  forall z p q, (z < size m.2.2)%N -> let x := nth (no_flavor C) m.2.2 z in
    (p < size (fd_annih x.1))%N -> (q < size (fd_annih x.1))%N -> fd_M x.1 p q \is Num.real.

Fixpoint for_all (T : Type) (P : T -> Prop) (l : seq T) : Prop := if l is x :: l' then P x /\ for_all P l' else True.

Lemma for_all_sum (C : numClosedFieldType) (T : Type) (P : T -> Prop) (F G : T -> C) l :
  for_all P l -> (forall x, P x -> F x = G x) -> \sum_(x <- l) F x = \sum_(x <- l) G x.
Proof.
by elim: l => [|x l ih] /=; rewrite ?big_nil // !big_cons => -[h1 h2] h; rewrite (h _ h1) ih.
Qed.

Lemma minus_zeroE beta : minus_zero beta = sp_minus_zero beta.
Proof. by rewrite /minus_zero /sp_minus_zero /tiny div1r mulNr. Qed.

Section Link.
Variables (C : numClosedFieldType) (cplx : bool) (g0 : rat -> nat -> nat -> nat -> C) (beta : rat).
Let mz := minus_zero beta.
Let g z t a b := castM cplx (g0 t z a b).

Lemma nth_seen (m : meas C) z : (z < size m.2.2)%N ->
  nth (FlavorData [::] [::] (fun _ _ => 0)) (seen m).2.2 z = (nth (no_flavor C) m.2.2 z).1.
Proof. by move=> h; rewrite (nth_map (no_flavor C)). Qed.

Lemma dval_density (m : meas C) z s : inverted m -> (z < size m.2.2)%N ->
  dval cplx g0 beta m.1 z (nth (FlavorData [::] [::] (fun _ _ => 0)) (seen m).2.2 z) s s =
  'Re (density_product (g z) mz m.1 (confs m z) [:: s]).
Proof. by move=> hi hz; rewrite nth_seen // dvalE wick1 //; exact: hi. Qed.
End Link.

(* ------------------------------------------------------------------ C48 *)

(* For the real program: the stored density of flavor z is the average over the sites, and
   the stored correlation of (f1, i) and (f2, j) the expectation value by Wick's theorem, of
   those very flavors and sites, both weighted with the sign and divided by the mean sign.
   No access is out of range. *)
Theorem C48_correlations :
  forall (C : numClosedFieldType) (g0 : rat -> nat -> nat -> nat -> C) (beta : rat) (n_site n_flavors : nat) (ms : seq (meas C)),
    let g z t a b := 'Re (g0 t z a b) in
    let mz := sp_minus_zero beta in
    (0 < size ms)%N ->
    for_all (fun m => [/\ size m.2.2 = n_flavors, inverted m & real_valued m]) ms ->
    \sum_(m <- ms) m.2.1 != 0 ->
    exists2 l, measure_all false g0 beta n_site [seq seen m | m <- ms] = Ok l &
    exists dens ni_nj, [/\ postprocess_densities n_site n_flavors l = Ok (dens, ni_nj), size dens = n_flavors,
      (forall z, (z < n_flavors)%N -> nth 0 dens z =
         (\sum_(m <- ms) m.2.1 * ((\sum_(s < n_site) density_product (g z) mz m.1 (confs m z) [:: val s]) / n_site%:R)) /
         \sum_(m <- ms) m.2.1) &
      forall f1 i f2 j, (f1 < n_flavors)%N -> (i < n_site)%N -> (f2 < n_flavors)%N -> (j < n_site)%N ->
        ni_nj f1 i f2 j = (\sum_(m <- ms) m.2.1 * density_correlation g mz m.1 (confs m) f1 i f2 j) / \sum_(m <- ms) m.2.1].
Proof.
move=> C g0 beta n_site nf ms g; rewrite -minus_zeroE => mz s0 hall nz.
set cs := [seq seen m | m <- ms].
have signs : \sum_(c <- cs) 'Re c.2.1 = \sum_(m <- ms) m.2.1.
  by rewrite big_map; apply: (for_all_sum hall) => m [_ _ [/Creal_ReP-> _]].
have sz : all (fun c => size c.2.2 == nf) cs.
  rewrite /cs; elim: (ms) hall => //= m l ih [[h _ _] /ih ->].
  by rewrite size_map h eqxx.
have [|//||l e [dens [ni_nj [p1 p2 p3 p4]]]] := @postP C false g0 beta n_site nf cs; first by rewrite size_map.
  by rewrite signs.
have D m z s s2 : [/\ size m.2.2 = nf, inverted m & real_valued m] -> (z < nf)%N ->
  dval false g0 beta m.1 z (nth (FlavorData [::] [::] (fun _ _ => 0)) (seen m).2.2 z) s s2 =
  wickm (g z) mz m.1 (nth (no_flavor C) m.2.2 z).1 s s2.
  move=> [h1 _ [_ h3]]; rewrite -h1 => hz; rewrite nth_seen // dvalE; apply/Creal_ReP/wick_real => [t a b|p q hp hq].
    exact: Creal_Re.
  exact: h3.
have W1 m z s : [/\ size m.2.2 = nf, inverted m & real_valued m] -> (z < nf)%N ->
  wickm (g z) mz m.1 (nth (no_flavor C) m.2.2 z).1 s s = density_product (g z) mz m.1 (confs m z) [:: s].
  by move=> [h1 h2 _]; rewrite -h1 => hz; rewrite wick1 //; exact: h2.
exists l => //; exists dens, ni_nj; split=> //.
  move=> z hz; rewrite p3 // signs; congr (_ / _); rewrite big_map.
  apply: (for_all_sum hall) => m hm; have [_ _ [/Creal_ReP-> _]] := hm; congr (_ * (_ / _)).
  by apply: eq_bigr => s _; rewrite D // W1.
move=> f1 i f2 j l1 l2 l3 l4; rewrite p4 // signs; congr (_ / _); rewrite big_map.
apply: (for_all_sum hall) => m hm; have [h1 h2 [/Creal_ReP-> _]] := hm; congr (_ * _).
rewrite /dcorr /density_correlation !D // !W1 //; case: eqP => // _; case: eqP => // _.
by rewrite wick2 ?W1 //; apply: h2; rewrite h1.
Qed.
Print Assumptions C48_correlations.

(* ------------------------------------------------------------------ C63 *)

(* With complex matrices the measurement takes the real part of every entry of the density
   matrix before it multiplies them.  Two sites, no interaction vertex at all, a Hermitian
   bare density matrix with an imaginary hopping: the stored correlation of the two sites is
   1/4, the expectation value is 0. *)
Definition g_imag (t : rat) (z a b : nat) : algC :=
  if a == b then 1 / 2%:R else if (a < b)%N then 'i / 2%:R else - ('i / 2%:R).
Definition empty_meas (t : rat) : meas [numClosedFieldType of algC] := (t, (1, [:: no_flavor [numClosedFieldType of algC]])).

Theorem C63_refuted :
  exists (g0 : rat -> nat -> nat -> nat -> algC) (beta : rat) (m : meas [numClosedFieldType of algC]),
    [/\ inverted m, (forall t z a b, g0 t z a b = (g0 t z b a)^*), m.2.1 = 1 &
    exists2 l, measure_all true g0 beta 2 [:: seen m] = Ok l &
    exists dens ni_nj, [/\ postprocess_densities 2 1 l = Ok (dens, ni_nj),
      density_correlation (fun z t a b => g0 t z a b) (sp_minus_zero beta) m.1 (confs m) 0 0 0 1 = 0 &
      ni_nj 0%N 0%N 0%N 1%N = 1 / 4%:R]].
Proof.
exists g_imag, 1, (empty_meas 0); split=> //.
- by move=> z; rewrite ltnS leqn0 => /eqP -> /= i j.
- move=> t z a b; rewrite /g_imag eq_sym; case: (ltngtP a b) => [lt|gt|e].
  + by rewrite rmorphN rmorphM fmorphV /= conjCi rmorph_nat mulNr opprK.
  + by rewrite rmorphM fmorphV /= conjCi rmorph_nat mulNr.
  + by rewrite rmorphM fmorphV /= rmorph1 rmorph_nat.
have r1 : 'Re (1 : algC) = 1 by apply/Creal_ReP/real1.
have [|||l e [dens [ni_nj [p1 _ _ p4]]]] := @postP [numClosedFieldType of algC] true g_imag 1 2 1 [:: seen (empty_meas 0)] => //.
  by rewrite big_cons big_nil /= addr0 r1 oner_eq0.
exists l => //; exists dens, ni_nj; split=> //.
  rewrite /density_correlation /= wick2; last by move=> i j.
  rewrite /wickm /= !big_ord0 !subr0 /g_imag /=.
  have h : forall x y : algC, x * x = -1 -> 1 / y * (1 / y) - - (x / y) * (x / y) = 0.
    move=> x y hx; have -> : 1 / y * (1 / y) - - (x / y) * (x / y) = (1 + x * x) * (y^-1 * y^-1) by move: (y^-1) => w; ring.
    by rewrite hx addrN mul0r.
  by apply: h; rewrite -expr2 sqrCi.
rewrite p4 // !big_cons !big_nil !addr0 /= r1 mul1r divr1 /dcorr /= !dvalE /wickm /= !big_ord0 !subr0 /g_imag /=.
have -> : 'Re (1 / 2%:R : algC) = 1 / 2%:R by apply/Creal_ReP; rewrite rpred_div ?real1 ?realn.
have -> : 'Re ('i / 2%:R : algC) = 0.
  by rewrite mulrC ReMl ?rpredV ?realn // Re_i mulr0.
by rewrite mulr0 subr0 !div1r -invfM -natrM div1r.
Qed.
Print Assumptions C63_refuted.

(* What does hold with complex matrices: the densities are the real part of the expectation
   value, weighted with the real part of the sign, and the correlation of two different
   flavors the product of these real parts. *)
Theorem C63_densities_partial :
  forall (C : numClosedFieldType) (g0 : rat -> nat -> nat -> nat -> C) (beta : rat) (n_site n_flavors : nat) (ms : seq (meas C)),
    let g z t a b := g0 t z a b in
    let mz := sp_minus_zero beta in
    (0 < size ms)%N ->
    for_all (fun m => size m.2.2 = n_flavors /\ inverted m) ms ->
    \sum_(m <- ms) 'Re m.2.1 != 0 ->
    exists2 l, measure_all true g0 beta n_site [seq seen m | m <- ms] = Ok l &
    exists dens ni_nj, [/\ postprocess_densities n_site n_flavors l = Ok (dens, ni_nj), size dens = n_flavors,
      (forall z, (z < n_flavors)%N -> nth 0 dens z =
         (\sum_(m <- ms) 'Re m.2.1 * ((\sum_(s < n_site) 'Re (density_product (g z) mz m.1 (confs m z) [:: val s])) / n_site%:R)) /
         \sum_(m <- ms) 'Re m.2.1) &
      forall f1 i f2 j, (f1 < n_flavors)%N -> (i < n_site)%N -> (f2 < n_flavors)%N -> (j < n_site)%N -> f1 <> f2 ->
        ni_nj f1 i f2 j = (\sum_(m <- ms) 'Re m.2.1 * ('Re (density_product (g f1) mz m.1 (confs m f1) [:: i]) *
                             'Re (density_product (g f2) mz m.1 (confs m f2) [:: j]))) / \sum_(m <- ms) 'Re m.2.1].
Proof.
move=> C g0 beta n_site nf ms g; rewrite -minus_zeroE => mz s0 hall nz.
have [|||l e [dens [ni_nj [p1 p2 p3 p4]]]] := @postP C true g0 beta n_site nf [seq seen m | m <- ms].
- by rewrite size_map.
- elim: (ms) hall => //= m l ih [[h _] /ih ->]; by rewrite size_map h eqxx.
- by rewrite big_map.
exists l => //; exists dens, ni_nj; split=> //.
  move=> z hz; rewrite p3 // !big_map; congr (_ / _).
  apply: (for_all_sum hall) => m [h1 h2]; congr (_ * (_ / _)).
  by apply: eq_bigr => s _; rewrite dval_density // h1.
move=> f1 i f2 j l1 l2 l3 l4 ne; rewrite p4 // !big_map; congr (_ / _).
apply: (for_all_sum hall) => m [h1 h2]; rewrite /dcorr; case: eqP => // _.
by rewrite !dval_density // h1.
Qed.
Print Assumptions C63_densities_partial.

(* ------------------------------------------------------------------ example *)

(* two sites, one operator pair on site 0, weight matrix (1), sign -1 *)
Definition g_ex (t : rat) (z a b : nat) : algC := if a == b then 1 / 2%:R else 1 / 4%:R.
Definition m_ex : meas [numClosedFieldType of algC] :=
  (1 / 2%:R, (-1, [:: (FlavorData [:: (0%N, 0)] [:: (0%N, 0)] (fun _ _ => 1), fun _ _ => 1)])).

Example C48_ex :
  exists2 l, measure_all false g_ex 1 2 [:: seen m_ex] = Ok l &
  exists dens ni_nj, [/\ postprocess_densities 2 1 l = Ok (dens, ni_nj),
    nth 0 dens 0%N = 11%:R / 32%:R, ni_nj 0%N 0%N 0%N 0%N = 1 / 4%:R & ni_nj 0%N 0%N 0%N 1%N = 3%:R / 32%:R].
Proof.
have inv : inverted m_ex.
  move=> z; rewrite ltnS leqn0 => /eqP -> /= i j; rewrite !ltnS !leqn0 => /eqP-> /eqP->.
  by rewrite big_ord_recl big_ord0 addr0 mulr1.
have [|||l e [dens [ni_nj [p1 _ p3 p4]]]] := @C48_correlations [numClosedFieldType of algC] g_ex 1 2 1 [:: m_ex] => //.
- split=> //; split=> //; split; first by rewrite rpredN real1.
  by move=> z p q; rewrite ltnS leqn0 => /eqP -> /= _ _; exact: real1.
- by rewrite big_cons big_nil addr0 /= oppr_eq0 oner_eq0.
move: p3 p4; move: (sp_minus_zero 1) => mz p3 p4.
have hr (n : nat) : 'Re (1 / n%:R : algC) = 1 / n%:R.
  by apply/Creal_ReP; rewrite rpred_div ?real1 ?realn.
have inv0 : inverse_of 1 (fun _ _ => 1 : algC) (fun _ _ => 1) := inv 0%N isT.
pose d := FlavorData [:: (0%N, 0)] [:: (0%N, 0)] (fun _ _ => 1 : algC).
have W1 i : density_product (fun t a b => 'Re (g_ex t 0 a b)) mz (1 / 2%:R) (confs m_ex 0) [:: i] =
    wickm (fun t a b => 'Re (g_ex t 0 a b)) mz (1 / 2%:R) d i i by exact: (@wick1 _ _ _ _ d _ i inv0).
have W2 i j : density_product (fun t a b => 'Re (g_ex t 0 a b)) mz (1 / 2%:R) (confs m_ex 0) [:: i; j] = _
  := @wick2 _ (fun t a b => 'Re (g_ex t 0 a b)) mz (1 / 2%:R) d _ i j inv0.
have V s s2 : wickm (fun t a b => 'Re (g_ex t 0 a b)) mz (1 / 2%:R) d s s2 =
   (if s2 == s then 1 / 2%:R else 1 / 4%:R) - (if s2 == 0%N then 1 / 2%:R else 1 / 4%:R) * (if 0%N == s then 1 / 2%:R else 1 / 4%:R).
  rewrite /wickm /= !big_ord_recl !big_ord0 !addr0 /= !mul1r /g_ex.
  by case: (s2 == s); case: (s2 == 0%N); case: (0%N == s); rewrite !hr !mul1r.
exists l => //; exists dens, ni_nj; split=> //.
- rewrite p3 // !big_cons !big_nil !addr0 !big_ord_recl big_ord0 !addr0 /= mulN1r invrN1 mulrN1 opprK !W1 !V /=.
  by field.
- rewrite p4 // !big_cons !big_nil !addr0 /= mulN1r invrN1 mulrN1 opprK /density_correlation /= W1 V /=.
  by field.
- rewrite p4 // !big_cons !big_nil !addr0 /= mulN1r invrN1 mulrN1 opprK /density_correlation /= W2 !V /=.
  by field.
Qed.
