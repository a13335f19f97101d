(* The band solver of SplineModel solves the linear system; diagonal dominance of the spline
   system keeps its pivots away from zero; the resulting curve is twice differentiable. *)
From mathcomp Require Import all_ssreflect ssralg ssrnum poly.
From mathcomp Require Import zify.
From mathcomp.algebra_tactics Require Import ring.
From Verif Require Import Outcome SplineModel SplineSpec.

Set Implicit Arguments.
Unset Strict Implicit.
Unset Printing Implicit Defensive.

Local Open Scope ring_scope.
Import Order.TTheory GRing.Theory Num.Theory.

Section Band.
Variable F : realFieldType.
Implicit Types A B C : band F.

Lemma bget_bset A i j v i' j' : bget (bset A i j v) i' j' = if (i' == i) && (j' == j) then v else bget A i' j'.
Proof.
rewrite /bget /bset; case: (leqP i j) => hij; case: (leqP i' j') => hij' /=.
- case: eqP => [e1|/eqP e1]; case: (eqVneq i' i) => [e2|e2] //=; case: eqP => [e3|/eqP e3] //=; exfalso; subst; lia.
- case: (eqVneq i' i) => [e2|e2] //=; case: eqP => [e3|/eqP e3] //=; exfalso; subst; lia.
- case: (eqVneq i' i) => [e2|e2] //=; case: eqP => [e3|/eqP e3] //=; exfalso; subst; lia.
- case: eqP => [e1|/eqP e1]; case: (eqVneq i' i) => [e2|e2] //=; case: eqP => [e3|/eqP e3] //=; exfalso; subst; lia.
Qed.
Lemma sget_bset A i j v i' : sget (bset A i j v) i' = sget A i'.
Proof.
rewrite /sget /bset; case: (leqP i j) => hij //=.
by have -> : (0%N == i - j)%N = false by lia.
Qed.
Lemma bget_sset A i v i' j' : bget (sset A i v) i' j' = bget A i' j'.
Proof. by rewrite /bget /sset /=; case: leqP => // h; have -> : (i' - j' == 0)%N = false by lia. Qed.
Lemma sget_sset A i v i' : sget (sset A i v) i' = if i' == i then v else sget A i'.
Proof. by []. Qed.
Lemma dims_bset A i j v : [/\ bd_n (bset A i j v) = bd_n A, bd_nu (bset A i j v) = bd_nu A & bd_nl (bset A i j v) = bd_nl A].
Proof. by rewrite /bset; case: leqP. Qed.

Definition same_dims A B := [/\ bd_n A = bd_n B, bd_nu A = bd_nu B & bd_nl A = bd_nl B].
Lemma sd_refl A : same_dims A A. Proof. by []. Qed.
Lemma sd_trans A B C : same_dims A B -> same_dims B C -> same_dims A C.
Proof. by case=> e1 e2 e3 [f1 f2 f3]; split; [rewrite e1|rewrite e2|rewrite e3]. Qed.

Lemma fold_row A i (f : band F -> nat -> F) (l : seq nat) :
  uniq l ->
  (forall B j v j', j' \in l -> j != j' -> f (bset B i j v) j' = f B j') ->
  let B := foldl (fun A j => bset A i j (f A j)) A l in
  [/\ same_dims B A, forall i', sget B i' = sget A i' &
      forall i' j', bget B i' j' = if (i' == i) && (j' \in l) then f A j' else bget A i' j'].
Proof.
elim: l A => [|j l ih] A /=; first by move=> _ _; split=> // i' j'; rewrite andbF.
case/andP=> nj ul hf.
have [|h1 h2 h3] := ih (bset A i j (f A j)) ul; first by move=> B j1 v j' h; apply: hf; rewrite inE h orbT.
split.
- by apply: sd_trans h1 _; apply: dims_bset.
- by move=> i'; rewrite h2 sget_bset.
move=> i' j'; rewrite h3 inE bget_bset.
case: (eqVneq i' i) => //= _; case: (boolP (j' \in l)) => hj'.
  have nn : j' != j by apply: contraNneq nj => <-.
  by rewrite (negbTE nn) /= hf ?inE ?hj' ?orbT // eq_sym.
by rewrite orbF; case: eqP => [->|].
Qed.

(* entries outside the bands are zero *)
Definition banded A := forall i j, (i + bd_nu A < j)%N || (j + bd_nl A < i)%N -> bget A i j = 0.

Lemma norm_rowP A i : banded A -> (i < bd_n A)%N -> bget A i i != 0 ->
  let B := norm_row A i in
  [/\ same_dims B A, banded B,
      forall i', sget B i' = (if i' == i then (bget A i i)^-1 else sget A i') &
      forall i' j', (j' < bd_n A)%N -> bget B i' j' = (if i' == i then bget A i j' / bget A i i else bget A i' j')].
Proof.
move=> bA li nz; rewrite /norm_row.
set A1 := sset A i _.
have [||d1 s1 g1] := @fold_row A1 i (fun A j => bget A i j * sget A i) (index_iota (i - bd_nl A) (minn (bd_n A) (i + bd_nu A).+1)).
- exact: iota_uniq.
- by move=> B j v j' _ nj; rewrite bget_bset sget_bset eqxx /= eq_sym (negbTE nj).
set B := foldl _ _ _ in d1 s1 g1 *.
have dB : same_dims (bset B i i 1) A by apply: sd_trans (dims_bset _ _ _ _) _.
have G i' j' : bget (bset B i i 1) i' j' =
   (if (i' == i) && (j' == i) then 1 else if (i' == i) && (j' \in index_iota (i - bd_nl A) (minn (bd_n A) (i + bd_nu A).+1)) then bget A i j' / bget A i i else bget A i' j').
  by rewrite bget_bset g1 !bget_sset sget_sset eqxx div1r.
split=> //.
- case: dB => e1 e2 e3 i' j'; rewrite e2 e3 G => h.
  have h0 := bA _ _ h.
  case: (eqVneq i' i) => [e|_] //=; subst i'; rewrite h0 mul0r; case: eqP => [e|_]; last by case: ifP.
  by subst; exfalso; lia.
- by move=> i'; rewrite sget_bset s1 sget_sset div1r.
move=> i' j' lj; rewrite G; case: (eqVneq i' i) => [->|_] //=.
case: (eqVneq j' i) => [->|ni]; first by rewrite divff.
rewrite mem_index_iota; case: ifP => // hin.
by rewrite (bA i j') ?mul0r //; move: hin lj; clear; lia.
Qed.

Lemma normP A : banded A -> (forall i, (i < bd_n A)%N -> bget A i i != 0) ->
  let B := foldl (@norm_row F) A (iota 0 (bd_n A)) in
  [/\ same_dims B A, banded B,
      forall i, (i < bd_n A)%N -> sget B i = (bget A i i)^-1 &
      forall i j, (i < bd_n A)%N -> (j < bd_n A)%N -> bget B i j = bget A i j / bget A i i].
Proof.
move=> bA nz /=.
suff H : forall m, (m <= bd_n A)%N ->
  let B := foldl (@norm_row F) A (iota 0 m) in
  [/\ same_dims B A, banded B,
      forall i, (i < m)%N -> sget B i = (bget A i i)^-1,
      forall i j, (i < m)%N -> (j < bd_n A)%N -> bget B i j = bget A i j / bget A i i &
      forall i j, (m <= i)%N -> (j < bd_n A)%N -> bget B i j = bget A i j].
  have [d b s g _] := H _ (leqnn _); split=> //.
elim=> [|m ih] lm; first by split=> // i; rewrite ltn0.
have [d b s g g'] := ih (ltnW lm).
cbv zeta; rewrite -[X in iota _ X]addn1 iotaD foldl_cat /= add0n.
set B := foldl _ _ _ in d b s g g' *.
have dn : bd_n B = bd_n A by case: d.
have em : bget B m m = bget A m m by apply: g'.
have [||d1 b1 s1 g1] := @norm_rowP B m b; rewrite ?dn ?em //; first exact: nz.
split=> //.
- exact: sd_trans d1 d.
- move=> i; rewrite ltnS s1 leq_eqVlt em; case: eqP => [->|] //= _ h; exact: s.
- move=> i j; rewrite ltnS leq_eqVlt => h lj; rewrite g1 ?dn //.
  case: eqP h => [->|_] /= h; first by rewrite em g'.
  exact: g.
- move=> i j h lj; rewrite g1 ?dn //.
  have -> : (i == m) = false by move: h; clear; lia.
  by apply: g' => //; exact: ltnW.
Qed.

(* one elimination step on entries *)
Definition elim_entry (k : nat) (g : nat -> nat -> F) (i j : nat) : F :=
  if (k < i)%N then
    if j == k then g i k / g k k
    else if (k < j)%N then g i j - g i k / g k k * g k j else g i j
  else g i j.

Lemma elim_rowP k A i : banded A -> (k < i)%N -> (i < bd_n A)%N -> (i <= k + bd_nl A)%N ->
  let B := elim_row k A i in
  [/\ same_dims B A, banded B, forall i', sget B i' = sget A i' &
      forall i' j', (j' < bd_n A)%N -> bget B i' j' = if i' == i then elim_entry k (bget A) i j' else bget A i' j'].
Proof.
move=> bA ki li lk; rewrite /elim_row.
set x := - bget A i k / bget A k k.
have nki : (k == i) = false by move: ki; clear; lia.
have [||d1 s1 g1] := @fold_row (bset A i k (- x)) i (fun A j => bget A i j + x * bget A k j) (index_iota k.+1 (minn (bd_n A) (k + bd_nu A).+1)).
- exact: iota_uniq.
- by move=> B j v j' _ nj; rewrite !bget_bset eqxx nki /= eq_sym (negbTE nj).
set B := foldl _ _ _ in d1 s1 g1 *.
have dB : same_dims B A by apply: sd_trans d1 (dims_bset _ _ _ _).
have ex : - x = bget A i k / bget A k k by rewrite /x mulNr opprK.
have G i' j' : bget B i' j' =
   (if (i' == i) && (j' \in index_iota k.+1 (minn (bd_n A) (k + bd_nu A).+1)) then bget A i j' - bget A i k / bget A k k * bget A k j'
    else if (i' == i) && (j' == k) then bget A i k / bget A k k else bget A i' j').
  rewrite g1 !bget_bset ex nki eqxx /=; case: ifP => // /andP[_ hm].
  have -> : (j' == k) = false by move: hm; rewrite mem_index_iota; clear; lia.
  by rewrite /x !mulNr.
split=> //.
- case: dB => e1 e2 e3 i' j'; rewrite e2 e3 G => h.
  have h0 := bA _ _ h.
  case: (eqVneq i' i) => [e|_] //=; subst i'.
  rewrite mem_index_iota; case: ifP => hm; first by exfalso; move: hm h ki lk; clear; lia.
  by case: eqP => // e; exfalso; move: e lk h ki; clear; lia.
- by move=> i'; rewrite s1 sget_bset.
move=> i' j' lj; rewrite G; case: (eqVneq i' i) => [->|_] //=.
rewrite /elim_entry ki mem_index_iota.
case: (eqVneq j' k) => [->|nk]; first by rewrite ltnn.
case: (ltnP k j') => kj /=; last by [].
rewrite leq_min lj /=; case: ltnP => // hj.
by rewrite (bA k j') ?mulr0 ?subr0 //; move: hj; clear; lia.
Qed.

Lemma elim_colP k A : banded A -> (k < bd_n A)%N ->
  let B := elim_col A k in
  [/\ same_dims B A, banded B, forall i', sget B i' = sget A i' &
      forall i j, (i < bd_n A)%N -> (j < bd_n A)%N -> bget B i j = elim_entry k (bget A) i j].
Proof.
move=> bA lk; rewrite /elim_col.
suff H : forall m, (k + m < minn (bd_n A) (k + bd_nl A).+1)%N ->
  let B := foldl (elim_row k) A (iota k.+1 m) in
  [/\ same_dims B A, banded B, forall i', sget B i' = sget A i',
      forall i j, (i <= k + m)%N -> (j < bd_n A)%N -> bget B i j = elim_entry k (bget A) i j &
      forall i j, (k + m < i)%N -> (j < bd_n A)%N -> bget B i j = bget A i j].
  have [|d b s g g'] := H (minn (bd_n A) (k + bd_nl A).+1 - k.+1)%N; first by move: lk; clear; lia.
  split=> // i j li lj; case: (leqP i (k + (minn (bd_n A) (k + bd_nl A).+1 - k.+1))) => hi; first exact: g.
  rewrite g' // /elim_entry; have ki : (k < i)%N by move: hi; clear; lia.
  have z : bget A i k = 0 by apply: bA; move: hi li; clear; lia.
  by rewrite ki; case: eqP => [->|_]; rewrite z !mul0r // subr0 if_same.
elim=> [|m ih] lm.
  split=> // i j; rewrite addn0 => hi lj; rewrite /elim_entry; have -> // : (k < i)%N = false by move: hi; clear; lia.
have [|d b s g g'] := ih; first by move: lm; clear; lia.
cbv zeta; rewrite -[X in iota _ X]addn1 iotaD foldl_cat /=.
set B := foldl _ _ _ in d b s g g' *.
case: (d) => dn _ dl.
have eik : (k.+1 + m = k + m.+1)%N by rewrite addSnnS.
have [|||d1 b1 s1 g1] := @elim_rowP k B (k.+1 + m) b; rewrite ?dn ?dl; try (move: lm; clear; lia).
split=> //.
- exact: sd_trans d1 d.
- by move=> i; rewrite s1 s.
- move=> i j hi lj; rewrite g1 ?dn //.
  case: eqP => [ei|ne]; last by rewrite g //; move: hi ne; clear; lia.
  have gk j' : (j' < bd_n A)%N -> bget B k j' = bget A k j'.
    by move=> h; rewrite g ?leq_addr // /elim_entry ltnn.
  have gi j' : (j' < bd_n A)%N -> bget B (k.+1 + m) j' = bget A (k.+1 + m) j'.
    by move=> h; apply: g' => //; rewrite addSn.
  by subst i; rewrite /elim_entry !gi // !gk.
move=> i j hi lj; rewrite g1 ?dn //.
have -> : (i == k.+1 + m)%N = false by move: hi; clear; lia.
by rewrite g' //; move: hi; clear; lia.
Qed.

(* the decomposition as iterated elimination of entries *)
Lemma luP A : banded A -> (forall i, (i < bd_n A)%N -> bget A i i != 0) ->
  let D := lu_decompose A in
  let A' := fun i j => bget A i j / bget A i i in
  exists g : nat -> nat -> nat -> F,
  [/\ same_dims D A, banded D, forall i, (i < bd_n A)%N -> sget D i = (bget A i i)^-1,
      (forall i j, (i < bd_n A)%N -> (j < bd_n A)%N -> g 0%N i j = A' i j /\ g (bd_n A) i j = bget D i j) &
      forall k i j, (k < bd_n A)%N -> (i < bd_n A)%N -> (j < bd_n A)%N -> g k.+1 i j = elim_entry k (g k) i j].
Proof.
move=> bA nz; rewrite /lu_decompose.
have [d0 b0 s0 g0] := normP bA nz.
set N := foldl _ _ _ in d0 b0 s0 g0 *.
exists (fun k => bget (foldl (@elim_col F) N (iota 0 k))).
have H : forall m, (m <= bd_n A)%N -> let B := foldl (@elim_col F) N (iota 0 m) in
  [/\ same_dims B A, banded B & forall i, sget B i = sget N i].
  elim=> [|m ih] lm; first by [].
  have [d b s] := ih (ltnW lm); cbv zeta.
  rewrite -[X in iota _ X]addn1 iotaD foldl_cat /= add0n.
  set B := foldl _ _ _ in d b s *.
  have lmB : (m < bd_n B)%N by case: d => ->.
  have [d1 b1 s1 _] := elim_colP b lmB.
  split=> //; first exact: sd_trans d1 d.
  by move=> i; rewrite s1 s.
have [d b s] := H _ (leqnn _).
split=> //; first by move=> i li; rewrite s s0.
  by move=> i j li lj; split=> //=; exact: g0.
move=> k i j lk li lj.
have [d1 b1 s1] := H k (ltnW lk).
rewrite -[X in iota _ X]addn1 iotaD foldl_cat [LHS]/= add0n.
set B := foldl _ _ _ in d1 b1 s1 *.
case: d1 => e1 _ _.
by have [_ _ _ ->] := elim_colP b1 (etrans (congr1 _ e1) lk); rewrite ?e1.
Qed.

End Band.

Section LU.
Variables (F : realFieldType) (n : nat) (g : nat -> nat -> nat -> F).
Hypothesis step : forall k i j, (k < n)%N -> (i < n)%N -> (j < n)%N -> g k.+1 i j = elim_entry k (g k) i j.

Lemma row_done k k' i j : (i <= k <= k')%N -> (k' <= n)%N -> (i < n)%N -> (j < n)%N -> g k' i j = g k i j.
Proof.
elim: k' => [|k' ih]; first by rewrite leqn0 => /andP[_ /eqP->].
case/andP=> ik; rewrite leq_eqVlt => /orP[/eqP-> //|kk] lk li lj.
rewrite step // /elim_entry; have -> : (k' < i)%N = false by move: ik kk; clear; lia.
by apply: ih => //; rewrite ?ik ?(ltnW lk) // -ltnS.
Qed.

Lemma lu_invariant k : (k <= n)%N -> (forall m, (m < k)%N -> g m m m != 0) ->
  forall i j, (i < n)%N -> (j < n)%N ->
  g 0%N i j = \sum_(0 <= m < k | (m < i)%N && (m <= j)%N) g k i m * g k m j + (if (minn i k <= j)%N then g k i j else 0).
Proof.
elim: k => [|k ih] lk nz i j li lj; first by rewrite big_geq // minn0 leq0n add0r.
rewrite ih ?(ltnW lk) //; last by move=> m h; apply: nz; rewrite ltnS ltnW.
rewrite big_mkcond [in RHS]big_mkcond big_nat_recr //= -addrA; congr (_ + _).
  rewrite !big_nat; apply: eq_bigr => m /andP[_ hm]; case: ifP => // /andP[mi mj].
  have lm : (m < n)%N by move: hm lk; clear; lia.
  rewrite !step // /elim_entry.
  have -> : (m == k) = false by move: hm; clear; lia.
  have -> : (k < m)%N = false by move: hm; clear; lia.
  by rewrite if_same.
have nzk := nz _ (ltnSn k).
rewrite !step // /elim_entry eqxx ltnn.
case: (ltnP k i) => ki /=; last first.
  rewrite add0r.
  by have -> : minn i k.+1 = i by move: ki; clear; lia.
have -> : minn i k.+1 = k.+1 by move: ki; clear; lia.
case: (ltngtP k j) => kj /=; rewrite ?add0r //.
  by rewrite addrC subrK.
by rewrite -kj addr0 divfK.
Qed.

(* strict row dominance of the part not yet eliminated *)
Definition dominant (k : nat) (h : nat -> nat -> F) :=
  forall i, (k <= i < n)%N -> \sum_(k <= j < n | j != i) `|h i j| < `|h i i|.

Lemma dominant_nz k h i : dominant k h -> (k <= i < n)%N -> h i i != 0.
Proof.
move=> dom hi; rewrite -normr_gt0; apply: le_lt_trans (dom _ hi).
by apply: sumr_ge0 => j _; exact: normr_ge0.
Qed.

Lemma dominant_step k : (k < n)%N -> dominant k (g k) -> dominant k.+1 (g k.+1).
Proof.
move=> lk dom i /andP[ki li].
have nzk : g k k k != 0 by apply: (dominant_nz dom); rewrite leqnn.
have di := dom i; have dk := dom k.
move: di dk; rewrite !(@big_ltn_cond _ _ _ k n _ _ lk) eqxx leqnn lk (ltnW ki) li /=.
have -> : (k != i) by move: ki; clear; lia.
move=> /(_ isT) di /(_ isT) dk.
rewrite step // /elim_entry ki; have -> : (i == k) = false by move: ki; clear; lia.
set l := g k i k / g k k k.
have el : `|g k i k| = `|l| * `|g k k k| by rewrite -normrM divfK.
have H1 : \sum_(k.+1 <= j < n | j != i) `|g k.+1 i j| <=
          \sum_(k.+1 <= j < n | j != i) `|g k i j| + `|l| * \sum_(k.+1 <= j < n | j != i) `|g k k j|.
  rewrite mulr_sumr -big_split /= big_nat_cond [X in _ <= X]big_nat_cond; apply: ler_sum => j /andP[/andP[kj lj] ni].
  rewrite step // /elim_entry ki kj; have -> : (j == k) = false by move: kj; clear; lia.
  by rewrite -normrM; exact: ler_norm_sub.
have H2 : \sum_(k.+1 <= j < n | j != i) `|g k k j| + `|g k k i| <= `|g k k k|.
  apply: le_trans (ltW dk).
  have -> : \sum_(k.+1 <= j < n | j != k) `|g k k j| = \sum_(k.+1 <= j < n) `|g k k j|.
    rewrite big_nat_cond [RHS]big_nat_cond; apply: eq_bigl => j; rewrite andbT.
    by case: eqP => [->|_]; rewrite ?andbT ?andbF // ltnn.
  by rewrite (bigD1_seq i) ?mem_index_iota ?ki ?iota_uniq //= addrC.
apply: le_lt_trans H1 _.
apply: lt_le_trans (_ : `|g k i i| - `|l| * `|g k k i| <= _); last first.
  by rewrite -normrM; exact: ler_sub_dist.
have H3 : `|l| * (\sum_(k.+1 <= j < n | j != i) `|g k k j| + `|g k k i|) <= `|l| * `|g k k k| by apply: ler_wpmul2l.
rewrite ltr_subr_addr -addrA -mulrDr.
apply: le_lt_trans di; rewrite addrC ler_add2r el.
exact: H3.
Qed.

Lemma dominant_all k : (k <= n)%N -> dominant 0 (g 0%N) -> dominant k (g k).
Proof. by elim: k => [//|k ih] lk d0; apply: dominant_step => //; apply: ih => //; exact: ltnW. Qed.

End LU.

Section Solve.
Variable F : realFieldType.

Lemma foldl_sum (f : nat -> F) (l : seq nat) s0 : foldl (fun s j => s + f j) s0 l = s0 + \sum_(j <- l) f j.
Proof.
elim: l s0 => [|j l ih] s0 /=; first by rewrite big_nil addr0.
by rewrite ih big_cons addrA.
Qed.

Lemma fold_solve (e : (nat -> F) -> nat -> F) (x0 : nat -> F) (l : seq nat) :
  uniq l ->
  (forall l1 i l2, l = l1 ++ i :: l2 -> forall x x', (forall j, j \in l1 -> x j = x' j) -> e x i = e x' i) ->
  let y := foldl (fun x i => upd x i (e x i)) x0 l in
  forall i, i \in l -> y i = e y i.
Proof.
elim/last_ind: l => [//|l i ih]; rewrite rcons_uniq => /andP[ni ul] he y i'.
rewrite /y -cats1 foldl_cat /=.
set X := foldl _ _ _.
have ihX : forall i', i' \in l -> X i' = e X i'.
  apply: ih => // l1 j l2 el; apply: (he l1 j (rcons l2 i)).
  by rewrite el rcons_cat.
have agree : forall j, j \in l -> X j = upd X i (e X i) j.
  by move=> j hj; rewrite /upd; case: eqP => // ej; move: ni; rewrite -ej hj.
rewrite mem_cat inE => /orP[hi|/eqP->].
  rewrite -agree // ihX //.
  case/splitPr: l / hi ni ul he {ih y ihX} X agree => l1 l2 ni ul he X agree.
  apply: (he l1 i' (rcons l2 i)); first by rewrite rcons_cat.
  by move=> j hj; apply: agree; rewrite mem_cat hj.
rewrite {1}/upd eqxx; apply: (he l i [::]); first by rewrite cats1.
exact: agree.
Qed.

Lemma iota_split n l1 i l2 : iota 0 n = l1 ++ i :: l2 -> l1 = iota 0 i /\ (i < n)%N.
Proof.
move=> e; have ln : (size l1 < n)%N by rewrite -(size_iota 0 n) e size_cat /=; lia.
have ei : i = size l1 by have := @nth_iota 0 0 n _ ln; rewrite e nth_cat ltnn subnn add0n.
have : take (size l1) (iota 0 n) = l1 by rewrite e take_size_cat.
by rewrite take_iota -ei; move=> <-; split; rewrite ?ei //; congr iota; move: ln; rewrite -ei; clear; lia.
Qed.

Lemma rev_iota_split n l1 i l2 : rev (iota 0 n) = l1 ++ i :: l2 ->
  (i < n)%N /\ forall j, (i < j < n)%N -> j \in l1.
Proof.
move=> /(congr1 rev); rewrite revK rev_cat rev_cons cat_rcons => e.
have [e1 li] := iota_split e; split=> // j /andP[ij jn].
have : j \in iota 0 n by rewrite mem_iota.
rewrite e e1 mem_cat mem_iota add0n inE mem_rev /=.
have -> : (j < i)%N = false by move: ij; clear; lia.
by have -> : (j == i) = false by move: ij; clear; lia.
Qed.

Lemma l_solveP (D : band F) b i : (i < bd_n D)%N -> banded D ->
  l_solve D b i = b i * sget D i - \sum_(0 <= j < i) bget D i j * l_solve D b j.
Proof.
move=> li bD.
have H := @fold_solve (fun x i => b i * sget D i - foldl (fun s j => s + bget D i j * x j) 0 (index_iota (i - bd_nl D) i)) (fun _ => 0) (iota 0 (bd_n D)) (iota_uniq _ _).
rewrite [LHS]H ?mem_iota //; last first.
  move=> l1 i' l2 /iota_split[el1 li'] x x' hx; rewrite !foldl_sum; congr (_ - (_ + _)).
  rewrite big_seq [RHS]big_seq; apply: eq_bigr => j; rewrite mem_index_iota => /andP[_ hj].
  by rewrite hx // el1 mem_iota.
rewrite -/(l_solve D b) foldl_sum add0r; congr (_ - _).
rewrite [RHS](big_cat_nat _ _ _ (leq0n (i - bd_nl D)) (leq_subr _ _)) /= [X in _ = X + _]big_nat [X in _ = X + _]big1 ?add0r //.
by move=> j hj; rewrite bD ?mul0r //; move: hj; clear; lia.
Qed.

Lemma r_solveP (D : band F) y i : (i < bd_n D)%N -> banded D -> bget D i i != 0 ->
  \sum_(i <= j < bd_n D) bget D i j * r_solve D y j = y i.
Proof.
move=> li bD nz.
have H := @fold_solve (fun x i => (y i - foldl (fun s j => s + bget D i j * x j) 0 (index_iota i.+1 (minn (bd_n D) (i + bd_nu D).+1))) / bget D i i) (fun _ => 0) (rev (iota 0 (bd_n D))).
have E : r_solve D y i = (y i - \sum_(i.+1 <= j < bd_n D) bget D i j * r_solve D y j) / bget D i i.
  rewrite [LHS]H ?rev_uniq ?iota_uniq ?mem_rev ?mem_iota //; last first.
    move=> l1 i' l2 /rev_iota_split[li' h1] x x' hx; rewrite !foldl_sum; congr ((_ - (_ + _)) / _).
    rewrite big_seq [RHS]big_seq; apply: eq_bigr => j; rewrite mem_index_iota => hj.
    by rewrite hx // h1 //; move: hj; clear; lia.
  rewrite -/(r_solve D y) foldl_sum add0r; congr ((_ - _) / _).
  have h1 : (i.+1 <= minn (bd_n D) (i + bd_nu D).+1)%N by move: li; clear; lia.
  rewrite [RHS](big_cat_nat _ _ _ h1 (geq_minl _ _)) /= [X in _ + X]big_nat [X in _ + X]big1 ?addr0 //.
  by move=> j hj; rewrite bD ?mul0r //; move: hj; clear; lia.
rewrite big_ltn // E mulrC divfK // subrK //.
Qed.

Theorem band_solve (A : band F) (b : nat -> F) :
  banded A ->
  (forall i, (i < bd_n A)%N -> \sum_(0 <= j < bd_n A | j != i) `|bget A i j| < `|bget A i i|) ->
  forall i, (i < bd_n A)%N -> \sum_(0 <= j < bd_n A) bget A i j * lu_solve A b j = b i.
Proof.
move=> bA dom i li.
have nz i' : (i' < bd_n A)%N -> bget A i' i' != 0.
  move=> h; rewrite -normr_gt0; apply: le_lt_trans (dom _ h).
  by apply: sumr_ge0 => j _; exact: normr_ge0.
have [g [dD bD sD g0D stp]] := luP bA nz.
rewrite /lu_solve; set D := lu_decompose A in dD bD sD g0D *.
case: (dD) => dn _ _.
set n := bd_n A in dom li nz sD g0D stp dn *.
have d0 : dominant n 0 (g 0%N).
  move=> i' hi'; rewrite [X in X < _](_ : _ = \sum_(0 <= j < n | j != i') `|bget A i' j| / `|bget A i' i'|).
    rewrite (proj1 (g0D i' i' _ _)) // divff ?nz // normr1 -mulr_suml ltr_pdivr_mulr ?mul1r ?dom //.
    by rewrite normr_gt0 nz.
  rewrite big_nat_cond [RHS]big_nat_cond; apply: eq_bigr => j /andP[/andP[_ lj] _].
  by rewrite (proj1 (g0D i' j _ _)) // normf_div.
have gnz m : (m < n)%N -> g m m m != 0.
  move=> lm; apply: (dominant_nz (dominant_all stp (ltnW lm) d0)).
  by rewrite leqnn.
have Dnz m : (m < n)%N -> bget D m m != 0.
  move=> lm; rewrite -(proj2 (g0D m m lm lm)) (row_done stp (k := m) (k' := n)) ?leqnn ?(ltnW lm) //.
  exact: gnz.
set y := l_solve D b; set x := r_solve D y.
have Hy i' : (i' < n)%N -> y i' + \sum_(0 <= m < i') bget D i' m * y m = b i' / bget A i' i'.
  by move=> h; rewrite /y {1}l_solveP ?dn // subrK sD.
have Hx i' : (i' < n)%N -> \sum_(i' <= j < n) bget D i' j * x j = y i'.
  by move=> h; rewrite -dn; apply: r_solveP; rewrite ?dn // Dnz.
have INV j : (j < n)%N -> bget A i j / bget A i i = \sum_(0 <= m < i | (m <= j)%N) bget D i m * bget D m j + (if (i <= j)%N then bget D i j else 0).
  move=> lj; rewrite -(proj1 (g0D i j li lj)) (lu_invariant stp (leqnn n)) //.
  have -> : minn i n = i by move: li; clear; lia.
  rewrite (proj2 (g0D i j li lj)); congr (_ + _).
  rewrite (big_nat_widen 0 i n _ _ (ltnW li)) big_nat_cond [RHS]big_nat_cond.
  apply: eq_big => [m|m /andP[/andP[_ lm] _]]; first by case: (m < n)%N; case: (m < i)%N; case: (m <= j)%N.
  by rewrite (proj2 (g0D i m li lm)) (proj2 (g0D m j lm lj)).
apply: (mulIf (invr_neq0 (nz _ li))); rewrite -Hy // mulr_suml.
transitivity (\sum_(0 <= j < n) (\sum_(0 <= m < i | (m <= j)%N) bget D i m * (bget D m j * x j) + (if (i <= j)%N then bget D i j * x j else 0))).
  rewrite big_nat [RHS]big_nat; apply: eq_bigr => j /andP[_ lj].
  rewrite mulrAC INV // mulrDl mulr_suml; congr (_ + _); last by case: ifP; rewrite ?mul0r.
  by apply: eq_bigr => m _; rewrite mulrA.
rewrite big_split /= addrC; congr (_ + _).
  rewrite -Hx // (big_cat_nat _ _ _ (leq0n i) (ltnW li)) /= [X in X + _ = _]big_nat [X in X + _ = _]big1 ?add0r.
    by rewrite big_nat [RHS]big_nat; apply: eq_bigr => j /andP[-> _].
  by move=> j hj; case: ifP => // h; move: hj h; clear; lia.
under eq_bigr do rewrite big_mkcond.
rewrite exchange_big /= big_nat [RHS]big_nat; apply: eq_bigr => m /andP[_ hm].
have lm : (m < n)%N by move: hm li; clear; lia.
rewrite -Hx // mulr_sumr (big_cat_nat _ _ _ (leq0n m) (ltnW lm)) /= [X in X + _ = _]big_nat [X in X + _ = _]big1 ?add0r.
  by rewrite big_nat [RHS]big_nat; apply: eq_bigr => j /andP[-> _].
by move=> j hj; case: ifP => // h; move: hj h; clear; lia.
Qed.

End Solve.

Section System.
Variable F : realFieldType.
Variables (n : nat) (x y : nat -> F).

Definition tri (A : band F) := [/\ bd_n A = n, bd_nu A = 1%N & bd_nl A = 1%N].

Lemma tri_bset A i j v : tri A -> tri (bset A i j v).
Proof. by case=> e1 e2 e3; have [f1 f2 f3] := dims_bset A i j v; split; rewrite ?f1 ?f2 ?f3. Qed.

Definition inner_entry (i j : nat) : F :=
  if j == i.+1 then 1 / 3%:R * (x i.+1 - x i)
  else if j == i then 2%:R / 3%:R * (x i.+1 - x i.-1)
  else if j == i.-1 then 1 / 3%:R * (x i - x i.-1)
  else 0.
Definition inner_rhs (i : nat) : F := (y i.+1 - y i) / (x i.+1 - x i) - (y i - y i.-1) / (x i - x i.-1).

Lemma inner_rowsP : let: (A, rhs) := inner_rows n x y in
  [/\ tri A, forall i j, bget A i j = (if (0 < i < n.-1)%N then inner_entry i j else 0) &
      forall i, (0 < i < n.-1)%N -> rhs i = inner_rhs i].
Proof.
rewrite /inner_rows /index_iota.
suff H : forall m, let: (A, rhs) := foldl (fun (p : band F * (nat -> F)) i =>
    let: (A, rhs) := p in
    let A1 := bset A i i.-1 (1 / 3%:R * (x i - x i.-1)) in
    let A2 := bset A1 i i (2%:R / 3%:R * (x i.+1 - x i.-1)) in
    let A3 := bset A2 i i.+1 (1 / 3%:R * (x i.+1 - x i)) in
    (A3, upd rhs i ((y i.+1 - y i) / (x i.+1 - x i) - (y i - y i.-1) / (x i - x i.-1))))
    (band_new F n 1 1, fun _ => 0) (iota 1 m) in
  [/\ tri A, forall i j, bget A i j = (if (0 < i <= m)%N then inner_entry i j else 0) &
      forall i, (0 < i <= m)%N -> rhs i = inner_rhs i].
  have := H (n.-1 - 1)%N; case: (foldl _ _ _) => A rhs [h1 h2 h3]; split=> //.
    move=> i j; rewrite h2; congr (if _ then _ else _); clear; lia.
  by move=> i hi; apply: h3; move: hi; clear; lia.
elim=> [|m ih].
  split=> // i; last by case: i.
  by move=> j; rewrite /bget /= if_same; case: i.
rewrite -[X in iota _ X]addn1 iotaD foldl_cat.
move: ih; case: (foldl _ _ _) => A rhs [h1 h2 h3] /=.
split.
- by do 3!apply: tri_bset.
- move=> i j; rewrite !bget_bset h2 add1n /=.
  case: (eqVneq i m.+1) => [->|ne] /=.
    rewrite /inner_entry ltnSn /=.
    by have -> : (m < m)%N = false by rewrite ltnn.
  by congr (if _ then _ else _); move: ne; clear; lia.
- move=> i; rewrite /upd add1n; case: eqP => [->|ne] h //.
  by apply: h3; move: h ne; clear; lia.
Qed.

End System.

Section Equations.
Variable F : realFieldType.
Variables (n : nat) (x y : nat -> F) (s : spline F).
Hypothesis n2 : (1 < n)%N.
Hypothesis incr : forall i, (i.+1 < n)%N -> x i < x i.+1.

Definition system := right_row s n x y (left_row s x y (inner_rows n x y)).

Definition left_entry (j : nat) : F := match sp_left s with
  | second_deriv => if j == 0%N then 2%:R else 0
  | first_deriv => if j == 0%N then 2%:R * (x 1%N - x 0%N) else if j == 1%N then x 1%N - x 0%N else 0 end.
Definition left_rhs : F := match sp_left s with
  | second_deriv => sp_lv s
  | first_deriv => 3%:R * ((y 1%N - y 0%N) / (x 1%N - x 0%N) - sp_lv s) end.
Definition right_entry (j : nat) : F := match sp_right s with
  | second_deriv => if j == n.-1 then 2%:R else 0
  | first_deriv => if j == n.-1 then 2%:R * (x n.-1 - x n.-2) else if j == n.-2 then x n.-1 - x n.-2 else 0 end.
Definition right_rhs : F := match sp_right s with
  | second_deriv => sp_rv s
  | first_deriv => 3%:R * (sp_rv s - (y n.-1 - y n.-2) / (x n.-1 - x n.-2)) end.

Lemma systemP : let: (A, rhs) := system in
  [/\ tri n A,
      forall i j, bget A i j = (if i == 0%N then left_entry j else if i == n.-1 then right_entry j
                                else if (i < n.-1)%N then inner_entry x i j else 0),
      rhs 0%N = left_rhs, rhs n.-1 = right_rhs & forall i, (0 < i < n.-1)%N -> rhs i = inner_rhs x y i].
Proof.
have n0 : (n.-1 == 0%N) = false by move: n2; clear; lia.
have nn : (n.-2 == n.-1) = false by move: n2; clear; lia.
rewrite /system; have := @inner_rowsP F n x y; case: (inner_rows n x y) => A rhs [t g r].
rewrite /left_row; set L := match sp_left s with second_deriv => _ | first_deriv => _ end.
have : [/\ tri n L.1, forall i j, bget L.1 i j = (if i == 0%N then left_entry j else if (i < n.-1)%N then inner_entry x i j else 0),
        L.2 0%N = left_rhs & forall i, (0 < i)%N -> L.2 i = rhs i].
  rewrite /L /left_entry /left_rhs; case: (sp_left s); split=> //=; try by do !apply: tri_bset.
  - move=> i j; rewrite !bget_bset g; case: (eqVneq i 0%N) => [->|ni] //=; last by rewrite lt0n ni.
    by rewrite mul1r; case: (eqVneq j 1%N) => [->|].
  - by case.
  - move=> i j; rewrite !bget_bset g; case: (eqVneq i 0%N) => [->|ni] //=; last by rewrite lt0n ni.
    by case: (eqVneq j 1%N) => [->|].
  - by case.
case: L => A1 rhs1 /= [t1 g1 r1 r1'].
rewrite /right_row /right_entry /right_rhs; case: (sp_right s); split=> /=; try by do !apply: tri_bset.
- move=> i j; rewrite !bget_bset g1; case: (eqVneq i n.-1) => [->|ni] //=.
  rewrite n0 mul1r ltnn; case: (eqVneq j n.-2) => [->|]; last by [].
  by rewrite nn.
- by rewrite /upd eq_sym n0.
- by rewrite /upd eqxx.
- move=> i hi; rewrite /upd; have -> : (i == n.-1) = false by move: hi; clear; lia.
  by rewrite r1' ?r //; case/andP: hi.
- move=> i j; rewrite !bget_bset g1; case: (eqVneq i n.-1) => [->|ni] //=.
  rewrite n0 ltnn; case: (eqVneq j n.-2) => [->|]; last by [].
  by rewrite nn.
- by rewrite /upd eq_sym n0.
- by rewrite /upd eqxx.
- move=> i hi; rewrite /upd; have -> : (i == n.-1) = false by move: hi; clear; lia.
  by rewrite r1' ?r //; case/andP: hi.
Qed.

Lemma sum_upto2 (f : nat -> F) : (forall j, (1 < j)%N -> f j = 0) -> \sum_(0 <= j < n) f j = f 0%N + f 1%N.
Proof.
move=> h; rewrite big_ltn ?(ltnW n2) // big_ltn // big_nat big1 ?addr0 //.
by move=> j /andP[hj _]; exact: h.
Qed.
Lemma sum_last2 (f : nat -> F) : (forall j, (j < n.-2)%N -> f j = 0) -> \sum_(0 <= j < n) f j = f n.-2 + f n.-1.
Proof.
move=> h; have -> : n = n.-2.+2 by move: n2; clear; lia.
rewrite big_nat_recr // big_nat_recr //= big_nat big1 ?add0r //.
Qed.
Lemma sum_mid (f : nat -> F) i : (0 < i < n.-1)%N -> (forall j, (j < i.-1)%N || (i.+1 < j)%N -> f j = 0) ->
  \sum_(0 <= j < n) f j = f i.-1 + f i + f i.+1.
Proof.
move=> hi h.
have h1 : (i.-1 <= n)%N by move: hi; clear; lia.
rewrite (big_cat_nat _ _ _ (leq0n _) h1) /= big_nat big1 ?add0r; last by move=> j /andP[_ hj]; rewrite h // hj.
rewrite big_ltn; last by move: hi; clear; lia.
have -> : i.-1.+1 = i by move: hi; clear; lia.
rewrite big_ltn; last by move: hi; clear; lia.
rewrite big_ltn; last by move: hi; clear; lia.
rewrite big_nat big1 ?addr0 ?addrA //.
by move=> j /andP[hj _]; rewrite h // hj orbT.
Qed.

Lemma system_solved : let b := (let: (A, rhs) := system in lu_solve A rhs) in
  [/\ match sp_left s with
      | second_deriv => 2%:R * b 0%N = sp_lv s
      | first_deriv => (2%:R * b 0%N + b 1%N) * (x 1%N - x 0%N) = 3%:R * ((y 1%N - y 0%N) / (x 1%N - x 0%N) - sp_lv s) end,
      match sp_right s with
      | second_deriv => 2%:R * b n.-1 = sp_rv s
      | first_deriv => (b n.-2 + 2%:R * b n.-1) * (x n.-1 - x n.-2) = 3%:R * (sp_rv s - (y n.-1 - y n.-2) / (x n.-1 - x n.-2)) end &
      forall i, (0 < i < n.-1)%N ->
        1 / 3%:R * (x i - x i.-1) * b i.-1 + 2%:R / 3%:R * (x i.+1 - x i.-1) * b i + 1 / 3%:R * (x i.+1 - x i) * b i.+1
        = (y i.+1 - y i) / (x i.+1 - x i) - (y i - y i.-1) / (x i - x i.-1)].
Proof.
have := systemP; case: system => A rhs [[t1 t2 t3] g r0 rn ri] /=.
have n0 : (n.-1 == 0%N) = false by move: n2; clear; lia.
have nn : (n.-2 == n.-1) = false by move: n2; clear; lia.
have nm : n.-2.+1 = n.-1 by move: n2; clear; lia.
have h0 : 0 < x 1%N - x 0%N by rewrite subr_gt0 incr.
have h1 : 0 < x n.-1 - x n.-2 by rewrite subr_gt0; have := @incr n.-2; rewrite nm; apply; move: n2; clear; lia.
have hi i : (0 < i < n.-1)%N -> 0 < x i - x i.-1 /\ 0 < x i.+1 - x i.
  move=> h; rewrite !subr_gt0; split; last by apply: incr; move: h; clear; lia.
  have {2}-> : i = i.-1.+1 by move: h; clear; lia.
  by apply: incr; move: h; clear; lia.
have two_gt0 : 0 < 2%:R :> F by rewrite ltr0n.
have third : 0 < 1 / 3%:R :> F by rewrite divr_gt0 ?ltr01 ?ltr0n.
have zl j : (1 < j)%N -> left_entry j = 0.
  by rewrite /left_entry; case: j => [|[|j]] //; case: sp_left.
have zr j : (j < n.-2)%N || (n.-1 < j)%N -> right_entry j = 0.
  move=> hj; have e1 : (j == n.-1) = false by move: hj; clear; lia.
  have e2 : (j == n.-2) = false by move: hj n2; clear; lia.
  by rewrite /right_entry e1 e2; case: sp_right.
have zi i j : (0 < i < n.-1)%N -> (j < i.-1)%N || (i.+1 < j)%N -> inner_entry x i j = 0.
  move=> h hj; rewrite /inner_entry.
  have -> : (j == i.+1) = false by move: h hj; clear; lia.
  have -> : (j == i) = false by move: h hj; clear; lia.
  by have -> : (j == i.-1) = false by move: h hj; clear; lia.
have vi i : (0 < i < n.-1)%N -> [/\ inner_entry x i i.-1 = 1 / 3%:R * (x i - x i.-1), inner_entry x i i = 2%:R / 3%:R * (x i.+1 - x i.-1) & inner_entry x i i.+1 = 1 / 3%:R * (x i.+1 - x i)].
  move=> h; rewrite /inner_entry !eqxx.
  have -> : (i.-1 == i.+1) = false by move: h; clear; lia.
  have -> : (i.-1 == i) = false by move: h; clear; lia.
  by have -> : (i == i.+1) = false by move: h; clear; lia.
have bA : banded A.
  move=> i j; rewrite t2 t3 g => h.
  case: eqP => [ei|ei]; first by apply: zl; move: h ei; clear; lia.
  case: eqP => [en|en]; first by apply: zr; move: h en n2; clear; lia.
  by case: ifP => // hin; apply: zi; [move: ei hin|move: h]; clear; lia.
have dom i : (i < bd_n A)%N -> \sum_(0 <= j < bd_n A | j != i) `|bget A i j| < `|bget A i i|.
  rewrite t1 => li.
  rewrite big_mkcond /=.
  under eq_bigr do rewrite g.
  rewrite g.
  case: eqP => [e0|ne0].
    rewrite sum_upto2 ?e0 /=; last by move=> j hj; rewrite zl // normr0 if_same.
    rewrite add0r /left_entry; case: sp_left => /=; last by rewrite normr0 normr_gt0 gt_eqF.
    rewrite !gtr0_norm // ?mulr_gt0 // mulrDl mul1r ltr_addl //.
  case: eqP => [en|nen].
    rewrite sum_last2; last by move=> j hj; rewrite zr ?hj // normr0 if_same.
    rewrite en eqxx addr0 nn /right_entry !eqxx nn /=; case: sp_right; rewrite ?eqxx /=; last by rewrite normr0 normr_gt0 gt_eqF.
    rewrite !gtr0_norm // ?mulr_gt0 // mulrDl mul1r ltr_addl //.
  have lin : (i < n.-1)%N by move: li nen; clear; lia.
  have hin : (0 < i < n.-1)%N by move: ne0 lin; clear; lia.
  rewrite lin (sum_mid hin); last by move=> j hj; rewrite zi // normr0 if_same.
  rewrite eqxx addr0; have -> : i.-1 != i by move: hin; clear; lia.
  have -> : i.+1 != i by clear; lia.
  have [v1 v2 v3] := vi _ hin; have [p1 p2] := hi _ hin.
  rewrite v1 v2 v3.
  have -> : x i.+1 - x i.-1 = (x i - x i.-1) + (x i.+1 - x i) by ring.
  move: (x i - x i.-1) (x i.+1 - x i) p1 p2 => u v p1 p2.
  rewrite !gtr0_norm ?mulr_gt0 ?addr_gt0 ?invr_gt0 ?ltr0n ?ltr01 //.
  rewrite -mulrDr ltr_pmul2r ?addr_gt0 // ltr_pmul2r ?invr_gt0 ?ltr0n //.
  by rewrite ltr1n.
have S i : (i < n)%N -> \sum_(0 <= j < n) bget A i j * lu_solve A rhs j = rhs i.
  by move=> li; have := @band_solve F A rhs bA dom i; rewrite t1 => /(_ li).
move: (lu_solve A rhs) S => b S.
split.
- have := S 0%N (ltnW n2); rewrite sum_upto2; last by move=> j hj; rewrite g /= zl ?mul0r.
  rewrite r0 !g /= /left_entry /left_rhs; case: sp_left => /= <-; last by rewrite mul0r addr0.
  by rewrite mulrDl mulrAC; congr (_ + _); rewrite mulrC.
- have := S n.-1; rewrite sum_last2; last by move=> j hj; rewrite g n0 eqxx zr ?hj ?mul0r.
  rewrite rn !g n0 eqxx /= /right_entry /right_rhs eqxx nn; case: sp_right => /= <-; rewrite ?eqxx.
  + by rewrite mulrDl mulrAC; congr (_ + _); rewrite mulrC.
  + by move: n2; clear; lia.
  + by rewrite mul0r add0r.
  + by move: n2; clear; lia.
- move=> i h; have := S i; rewrite (sum_mid h); last first.
    move=> j hj; rewrite g; case: eqP => [ei|_]; first by exfalso; move: h ei; clear; lia.
    case: eqP => [ei|_]; first by exfalso; move: h ei; clear; lia.
    by case: ifP => // _; rewrite ?zi ?mul0r.
  rewrite ri // /inner_rhs; move=> <-; last by move: h; clear; lia.
  rewrite !g; have -> : (i == 0%N) = false by move: h; clear; lia.
  have -> : (i == n.-1) = false by move: h; clear; lia.
  have -> : (i < n.-1)%N by move: h; clear; lia.
  by have [-> -> ->] := vi _ h.
Qed.

End Equations.

Section Curve.
Variable F : realFieldType.

Definition cub (a b c y x : F) : {poly F} := a *: ('X - x%:P) ^+ 3 + b *: ('X - x%:P) ^+ 2 + c *: ('X - x%:P) + y%:P.

Lemma cub_at a b c y x t : (cub a b c y x).[t] = ((a * (t - x) + b) * (t - x) + c) * (t - x) + y.
Proof. by rewrite /cub !(hornerE, horner_exp) /=; ring. Qed.
Lemma cub_deriv a b c y x : (cub a b c y x)^`() = cub 0 (3%:R * a) (2%:R * b) c x.
Proof.
rewrite /cub !derivD !derivZ !deriv_exp derivXsubC derivC !mul1r /= expr1 scale0r add0r addr0.
rewrite -!scaler_nat !scalerA ![_ * _%:R]mulrC; congr (_ + _ + _).
by rewrite alg_polyC.
Qed.
Lemma cub_d1 a b c y x t : (cub a b c y x)^`(1).[t] = (3%:R * a * (t - x) + 2%:R * b) * (t - x) + c.
Proof. by rewrite derivn1 cub_deriv cub_at mul0r add0r. Qed.
Lemma cub_d2 a b c y x t : (cub a b c y x)^`(2).[t] = 6%:R * a * (t - x) + 2%:R * b.
Proof. by rewrite derivnS derivn1 !cub_deriv cub_at; move: (t - x) => h; ring. Qed.
Lemma cub_d3 a b c y x t : (cub a b c y x)^`(3).[t] = 6%:R * a.
Proof. by rewrite derivnS derivnS derivn1 !cub_deriv cub_at; move: (t - x) => h; ring. Qed.
Lemma cub_size a b c y x : (size (cub a b c y x) <= 4)%N.
Proof.
rewrite /cub; apply: leq_trans (size_add _ _) _; rewrite geq_max; apply/andP; split; last first.
  by apply: leq_trans (size_polyC_leq1 _) _.
apply: leq_trans (size_add _ _) _; rewrite geq_max; apply/andP; split; last first.
  by apply: leq_trans (size_scale_leq _ _) _; rewrite size_XsubC.
apply: leq_trans (size_add _ _) _; rewrite geq_max; apply/andP; split.
  by apply: leq_trans (size_scale_leq _ _) _; rewrite size_exp_XsubC.
by apply: leq_trans (size_scale_leq _ _) _; rewrite size_exp_XsubC.
Qed.
Lemma quad_size b c y x : (size (cub 0 b c y x) <= 3)%N.
Proof.
rewrite /cub scale0r add0r; apply: leq_trans (size_add _ _) _; rewrite geq_max; apply/andP; split; last first.
  by apply: leq_trans (size_polyC_leq1 _) _.
apply: leq_trans (size_add _ _) _; rewrite geq_max; apply/andP; split; last first.
  by apply: leq_trans (size_scale_leq _ _) _; rewrite size_XsubC.
by apply: leq_trans (size_scale_leq _ _) _; rewrite size_exp_XsubC.
Qed.
Lemma lin_size c y x : (size (cub 0 0 c y x) <= 2)%N.
Proof.
rewrite /cub !scale0r !add0r; apply: leq_trans (size_add _ _) _; rewrite geq_max; apply/andP; split; last first.
  by apply: leq_trans (size_polyC_leq1 _) _.
by apply: leq_trans (size_scale_leq _ _) _; rewrite size_XsubC.
Qed.
(* two polynomials that agree on an interval are equal *)
Lemma poly_interval (p q : {poly F}) u v : u < v -> (forall t, u < t < v -> p.[t] = q.[t]) -> p = q.
Proof.
move=> uv h; apply/eqP; rewrite -subr_eq0; apply/negPn/negP => nz.
pose r := [seq u + (v - u) / (i.+2)%:R | i <- iota 0 (size (p - q))].
have d0 : 0 < v - u by rewrite subr_gt0.
have := max_poly_roots nz (rs := r); rewrite size_map size_iota ltnn => H.
suff : false by []; apply: H.
  apply/allP => t /mapP[i _ ->]; rewrite /root hornerD hornerN subr_eq0; apply/eqP/h.
  rewrite ltr_addl divr_gt0 ?ltr0n //= -ltr_subr_addl ltr_pdivr_mulr ?ltr0n //.
  by rewrite ltr_pmulr // ltr1n.
rewrite map_inj_uniq ?iota_uniq // => i j /addrI /(mulfI (lt0r_neq0 d0)) /invr_inj /eqP.
by rewrite eqr_nat => /eqP [].
Qed.

Lemma lower_boundE (xs : seq F) t k : (k <= size xs)%N -> (forall j, (j < k)%N -> nth 0 xs j < t) ->
  ((k < size xs)%N -> t <= nth 0 xs k) -> lower_bound xs t = k.
Proof.
move=> lk h1 h2; rewrite /lower_bound.
set p := fun z => _; apply/eqP; rewrite eqn_leq; apply/andP; split.
  case: (ltnP k (size xs)) => hk; last by apply: leq_trans (find_size _ _) _.
  rewrite leqNgt; apply/negP => hf; have := before_find 0 hf.
  by rewrite /p -leNgt h2.
rewrite leqNgt; apply/negP => hf.
have := @nth_find _ 0 p xs; rewrite has_find (leq_trans hf lk) => /(_ isT).
by rewrite /p h1.
Qed.

Variables (s : spline F).
Notation xs := (sp_x s).
Notation n := (size xs).
Notation x := (nth 0 xs).
Notation y := (nth 0 (sp_y s)).
Hypothesis n2 : (1 < n)%N.
Hypothesis incr : increasing xs.

Definition piece (k : nat) : {poly F} :=
  if k is i.+1 then cub (sp_a s i) (sp_b s i) (sp_c s i) (y i) (x i) else cub 0 (sp_b0 s) (sp_c0 s) (y 0%N) (x 0%N).

Hypothesis hit : forall i, (i.+1 < n)%N -> (piece i.+1).[x i.+1] = y i.+1.
Hypothesis a_last : sp_a s n.-1 = 0.

Lemma incr_le i j : (i <= j < n)%N -> x i <= x j.
Proof.
case/andP; rewrite leq_eqVlt => /orP[/eqP-> //|ij] jn.
by apply/ltW/incr; rewrite ij.
Qed.

Lemma idx_left t : t <= x 0%N -> lower_bound xs t = 0%N.
Proof. by move=> h; apply: lower_boundE. Qed.
Lemma idx_mid i t : (i.+1 < n)%N -> x i < t <= x i.+1 -> lower_bound xs t = i.+1.
Proof.
move=> li /andP[h1 h2]; apply: lower_boundE => //; first exact: ltnW.
by move=> j; rewrite ltnS => ji; apply: le_lt_trans h1; apply: incr_le; rewrite ji ltnW.
Qed.
Lemma idx_right t : x n.-1 < t -> lower_bound xs t = n.
Proof.
move=> h1; apply: lower_boundE => //; last by rewrite ltnn.
by move=> j jn; apply: le_lt_trans h1; apply: incr_le; move: jn; clear; lia.
Qed.

Lemma at_left t : t < x 0%N -> spline_at s t = (piece 0).[t].
Proof. by move=> h; rewrite /spline_at (idx_left (ltW h)) /= h cub_at mul0r add0r. Qed.
Lemma at_first : spline_at s (x 0%N) = y 0%N.
Proof.
rewrite /spline_at (idx_left (lexx _)) /= ltxx.
have -> : (x n.-1 < x 0%N) = false by apply/negbTE; rewrite -leNgt incr_le //=; move: n2; clear; lia.
by rewrite subrr !(mulr0, mul0r, add0r).
Qed.
Lemma at_mid i t : (i.+1 < n)%N -> x i < t <= x i.+1 -> spline_at s t = (piece i.+1).[t].
Proof.
move=> li ht; have [h1 h2] := andP ht; rewrite /spline_at (idx_mid li ht) /=.
have -> : (t < x 0%N) = false.
  by apply/negbTE; rewrite -leNgt; apply/ltW/(le_lt_trans _ h1)/incr_le; move: li; clear; lia.
have -> : (x n.-1 < t) = false.
  by apply/negbTE; rewrite -leNgt; apply: le_trans h2 _; apply: incr_le; move: li; clear; lia.
by rewrite cub_at.
Qed.
Lemma at_right t : x n.-1 < t -> spline_at s t = (piece n).[t].
Proof.
move=> h; rewrite /spline_at (idx_right h) h.
have -> : (t < x 0%N) = false.
  by apply/negbTE; rewrite -leNgt; apply/ltW/(le_lt_trans _ h)/incr_le; move: n2; clear; lia.
have -> : n = n.-1.+1 by move: n2; clear; lia.
by rewrite /piece cub_at /= a_last mul0r add0r.
Qed.
Lemma piece_start i : (piece i.+1).[x i] = y i.
Proof. by rewrite cub_at subrr !(mulr0, add0r). Qed.
Lemma piece0_start : (piece 0).[x 0%N] = y 0%N.
Proof. by rewrite cub_at subrr !(mulr0, add0r). Qed.

Lemma at_point i : (i < n)%N -> spline_at s (x i) = y i.
Proof.
case: i => [|i] li; first exact: at_first.
by rewrite (@at_mid i) ?hit // lexx andbT incr // ltnSn.
Qed.

Lemma at_piecewise : piecewise xs piece (spline_at s).
Proof.
split.
- move=> t; rewrite le_eqVlt => /orP[/eqP->|]; last exact: at_left.
  by rewrite at_first piece0_start.
- move=> i t li /andP[]; rewrite le_eqVlt => /orP[/eqP<-|h1] h2; last by apply: at_mid; rewrite ?h1.
  by rewrite piece_start at_point // ltnW.
- move=> t; rewrite le_eqVlt => /orP[/eqP<-|]; last exact: at_right.
  rewrite at_point; last by move: n2; clear; lia.
  have {2}-> : n = n.-1.+1 by move: n2; clear; lia.
  by rewrite piece_start.
Qed.

(* the pieces of a curve are determined by its values *)
Lemma pieces_unique Q f : piecewise xs piece f -> piecewise xs Q f -> forall k, (k <= n)%N -> Q k = piece k.
Proof.
move=> [p1 p2 p3] [q1 q2 q3] [|k] lk.
- apply: (@poly_interval _ _ (x 0%N - 1) (x 0%N)); first by rewrite ltr_subl_addr ltr_addl ltr01.
  by move=> t /andP[_ /ltW h]; rewrite -p1 // -q1.
- move: lk; rewrite leq_eqVlt => /orP[/eqP ek|lk].
    apply: (@poly_interval _ _ (x n.-1) (x n.-1 + 1)); first by rewrite ltr_addl ltr01.
    by move=> t /andP[/ltW h _]; rewrite ek -p3 // -q3.
  apply: (@poly_interval _ _ (x k) (x k.+1)); first by apply: incr; rewrite ltnSn.
  by move=> t /andP[/ltW h1 /ltW h2]; rewrite -p2 ?h1 // -q2 ?h1.
Qed.

Lemma deriv_high k i t : (3 < k)%N -> (piece i)^`(k).[t] = 0.
Proof. by move=> h; rewrite derivn_poly0 ?horner0 //; case: i => [|i]; apply: leq_trans (cub_size _ _ _ _ _) h. Qed.

Lemma deriv_left k t : k != 0%N -> k != 2%N -> t < x 0%N -> spline_deriv s k t = (piece 0)^`(k).[t].
Proof.
move=> k0 k2 h; rewrite /spline_deriv (idx_left (ltW h)) h /=.
case: k k0 k2 => [//|[|[//|[|k]]]] _ _.
- by rewrite cub_d1 mulr0 mul0r add0r.
- by rewrite cub_d3 mulr0.
- by apply/esym/(@deriv_high k.+4 0 t).
Qed.
Lemma deriv_left2 t : t < x 0%N -> spline_deriv s 2 t = (piece 0)^`(2).[t] * (t - x 0%N).
Proof. by move=> h; rewrite /spline_deriv (idx_left (ltW h)) h /= cub_d2; ring. Qed.
Lemma deriv_mid k i t : k != 0%N -> (i.+1 < n)%N -> x i < t <= x i.+1 -> spline_deriv s k t = (piece i.+1)^`(k).[t].
Proof.
move=> k0 li ht; have [h1 h2] := andP ht; rewrite /spline_deriv (idx_mid li ht).
have -> : (t < x 0%N) = false.
  by apply/negbTE; rewrite -leNgt; apply/ltW/(le_lt_trans _ h1)/incr_le; move: li; clear; lia.
have -> : (x n.-1 < t) = false.
  by apply/negbTE; rewrite -leNgt; apply: le_trans h2 _; apply: incr_le; move: li; clear; lia.
case: k k0 => [//|[|[|[|k]]]] _ /=.
- by rewrite cub_d1.
- by rewrite cub_d2.
- by rewrite cub_d3.
- by apply/esym/(@deriv_high k.+4 i.+1 t).
Qed.
Lemma deriv_first k : k != 0%N -> spline_deriv s k (x 0%N) = (piece 1)^`(k).[x 0%N].
Proof.
move=> k0; rewrite /spline_deriv (idx_left (lexx _)) /= ltxx.
have -> : (x n.-1 < x 0%N) = false by apply/negbTE; rewrite -leNgt incr_le //=; move: n2; clear; lia.
case: k k0 => [//|[|[|[|k]]]] _ /=.
- by rewrite cub_d1.
- by rewrite cub_d2.
- by rewrite cub_d3.
- by apply/esym/(@deriv_high k.+4 1 (x 0%N)).
Qed.
Lemma deriv_right k t : k != 0%N -> x n.-1 < t -> spline_deriv s k t = (piece n)^`(k).[t].
Proof.
move=> k0 h; rewrite /spline_deriv (idx_right h) h.
have -> : (t < x 0%N) = false.
  by apply/negbTE; rewrite -leNgt; apply/ltW/(le_lt_trans _ h)/incr_le; move: n2; clear; lia.
have en : n = n.-1.+1 by move: n2; clear; lia.
rewrite [in RHS]en /piece.
case: k k0 => [//|[|[|[|k]]]] _ /=.
- by rewrite cub_d1 a_last mulr0 mul0r add0r.
- by rewrite cub_d2 a_last mulr0 mul0r add0r.
- by rewrite cub_d3 a_last mulr0.
- exact: (esym (@deriv_high k.+4 n.-1.+1 t isT)).
Qed.

End Curve.

Section SetPoints.
Variable F : realFieldType.

Definition bc_order (b : bd_type) : nat := match b with first_deriv => 1 | second_deriv => 2 end.

Lemma set_points_cubic (s0 : spline F) (xs ys : seq F) :
  (1 < size xs)%N -> size ys = size xs -> increasing xs ->
  exists s, [/\ set_points s0 xs ys true = Ok s, sp_x s = xs /\ sp_y s = ys,
    sp_a s (size xs).-1 = 0 /\ (forall i, (i.+1 < size xs)%N -> (piece s i.+1).[nth 0 xs i.+1] = nth 0 ys i.+1),
    (forall i, (i < size xs)%N ->
       smooth_at (if sp_lin s0 && ((i == 0%N) || (i == (size xs).-1)) then 1 else 2)%N xs (piece s) i) /\
    (sp_lin s0 -> (size (piece s 0) <= 2)%N /\ (size (piece s (size xs)) <= 2)%N) &
    (piece s 1)^`(bc_order (sp_left s0)).[nth 0 xs 0] = sp_lv s0 /\
    (piece s (size xs).-1)^`(bc_order (sp_right s0)).[nth 0 xs (size xs).-1] = sp_rv s0].
Proof.
move=> n2 sy incr; rewrite /set_points sy ltnn ltnNge n2 /= -/(system (size xs) (nth 0 xs) (nth 0 ys) s0).
set n := size xs in n2 *; set x := nth 0 xs; set y := nth 0 ys.
have inc i : (i.+1 < n)%N -> x i < x i.+1 by move=> h; apply: incr; rewrite ltnSn.
have := @system_solved F n x y s0 n2 inc.
case: (system n x y s0) => A rhs; move: (lu_solve A rhs) => b [/= eL eR eI].
have hp i : (i.+1 < n)%N -> x i.+1 - x i != 0 by move=> h; rewrite subr_eq0 gt_eqF // inc.
have nz3 : 3%:R != 0 :> F by rewrite pnatr_eq0.
have nn : n.-2.+1 = n.-1 by move: n2; clear; lia.
have nN : n = n.-1.+1 by move: n2; clear; lia.
pose a i := 1 / 3%:R * (b i.+1 - b i) / (x i.+1 - x i).
pose c i := (y i.+1 - y i) / (x i.+1 - x i) - 1 / 3%:R * (2%:R * b i + b i.+1) * (x i.+1 - x i).
eexists; split; first by reflexivity.
- by [].
- split; first by rewrite /= /upd eqxx.
  move=> i li; rewrite /piece cub_at /= /upd.
  have ni : (i == n.-1) = false by move: li; clear; lia.
  rewrite ni; have -> : (if sp_lin s0 then fun j => if j == n.-1 then 0 else b j else b) i = b i by case: (sp_lin s0); rewrite ?ni.
  rewrite /a /c -/x -/y -/n; have h := hp _ li.
  move: (x i.+1 - x i) (y i.+1) (y i) (b i) (b i.+1) h => H y1 y0 b0 b1 h.
  by field; rewrite h ?nz3.
- set S := Spline _ _ _ _ _ _ _ _ _ _ _ _.
  have ea i : (i < n.-1)%N -> sp_a S i = a i by move=> h; rewrite /= /upd; have -> : (i == n.-1) = false by move: h; clear; lia.
  have eb i : (i < n.-1)%N -> sp_b S i = b i.
    by move=> h; rewrite /=; case: ifP => // _; rewrite /upd; have -> : (i == n.-1) = false by move: h; clear; lia.
  have ec i : (i < n.-1)%N -> sp_c S i = c i by move=> h; rewrite /= /upd; have -> : (i == n.-1) = false by move: h; clear; lia.
  have eal : sp_a S n.-1 = 0 by rewrite /= /upd eqxx.
  have ecl : sp_c S n.-1 = 3%:R * a n.-2 * (x n.-1 - x n.-2) * (x n.-1 - x n.-2) + 2%:R * b n.-2 * (x n.-1 - x n.-2) + c n.-2.
    by rewrite /= /upd eqxx; have -> : (n.-2 == n.-1) = false by move: n2; clear; lia.
  have ebl : sp_b S n.-1 = if sp_lin s0 then 0 else b n.-1 by rewrite /=; case: ifP => // _; rewrite /upd eqxx.
  have eb0 : sp_b0 S = if sp_lin s0 then 0 else b 0%N by rewrite /=; case: (sp_lin s0).
  have ec0 : sp_c0 S = c 0%N by [].
  have ex : sp_x S = xs by [].
  have ey : sp_y S = ys by [].
  have d2 i : (i.+1 < n)%N -> 6%:R * a i * (x i.+1 - x i) + 2%:R * b i = 2%:R * b i.+1.
    move=> li; rewrite /a -/x; have := hp _ li; move: (x i.+1 - x i) => H h.
    by field; rewrite h ?nz3.
  have val i : (i.+1 < n)%N -> ((a i * (x i.+1 - x i) + b i) * (x i.+1 - x i) + c i) * (x i.+1 - x i) + y i = y i.+1.
    move=> li; rewrite /a /c -/x -/y; have := hp _ li; move: (x i.+1 - x i) => H h.
    by field; rewrite h ?nz3.
  have d1 i : (i.+2 < n)%N -> (3%:R * a i * (x i.+1 - x i) + 2%:R * b i) * (x i.+1 - x i) + c i = c i.+1.
    move=> li; have := eI i.+1; rewrite /a /c -/x -/y /=.
    have -> : x i.+2 - x i = (x i.+2 - x i.+1) + (x i.+1 - x i) by ring.
    have h1 := hp _ li; have h0 := hp i (ltnW li).
    move=> /(_ _) e; have {}e := e _.
    have li' : (0 < i.+1 < n.-1)%N by move: li; clear; lia.
    move: {e}(e li'); move: (x i.+2 - x i.+1) (x i.+1 - x i) h1 h0 => H1 H0 h1 h0 e.
    apply/eqP; rewrite -subr_eq0.
    have -> : (3%:R * (1 / 3%:R * (b i.+1 - b i) / H0) * H0 + 2%:R * b i) * H0 + ((y i.+1 - y i) / H0 - 1 / 3%:R * (2%:R * b i + b i.+1) * H0) - ((y i.+2 - y i.+1) / H1 - 1 / 3%:R * (2%:R * b i.+1 + b i.+2) * H1)
      = (1 / 3%:R * H0 * b i + 2%:R / 3%:R * (H1 + H0) * b i.+1 + 1 / 3%:R * H1 * b i.+2) - ((y i.+2 - y i.+1) / H1 - (y i.+1 - y i) / H0).
      by field; rewrite h1 h0 ?nz3.
    by rewrite e subrr.
  move: (S) ea eb ec eal ecl ebl eb0 ec0 ex ey => {}S ea eb ec eal ecl ebl eb0 ec0 ex ey.
  split; last first.
    move=> lin; rewrite lin in eb0 ebl; rewrite /piece -/n [in X in _ /\ X]nN eb0 ebl eal.
    by split; exact: lin_size.
  move=> i li k hk; rewrite -/x.
  case: i li hk => [|i] li hk.
    have l0 : (0 < n.-1)%N by move: n2; clear; lia.
    case: k hk => [|[|[|k]]] hk; last by move: hk; case: ifP.
    + by rewrite !derivn0 !cub_at ex subrr !(mulr0, add0r).
    + by rewrite !cub_d1 ex subrr !(mulr0, add0r) ec0 ec.
    + rewrite !cub_d2 ex subrr !(mulr0, add0r) eb // eb0.
      by move: hk; case: (sp_lin s0).
  rewrite /piece ex ey -/x -/y.
  have li' : (i < n.-1)%N by move: li; clear; lia.
  rewrite ea // eb // ec //.
  case: (eqVneq i.+1 n.-1) hk => [ei|ni] hk.
    have ei' : i = n.-2 by move: ei; clear; lia.
    case: k hk => [|[|[|k]]] hk; last by move: hk; case: ifP.
    + by rewrite !derivn0 !cub_at subrr !(mulr0, add0r) val.
    + rewrite !cub_d1 subrr !(mulr0, add0r) ei ecl ei'; ring.
    + rewrite !cub_d2 subrr !(mulr0, add0r) d2 // ei ebl.
      by move: hk; rewrite orbT andbT; case: (sp_lin s0).
  have li2 : (i.+1 < n.-1)%N by move: li ni; clear; lia.
  rewrite ea // eb // ec //.
  case: k hk => [|[|[|k]]] hk; last by move: hk; rewrite andbF.
  + by rewrite !derivn0 !cub_at subrr !(mulr0, add0r) val.
  + rewrite !cub_d1 subrr !(mulr0, add0r) d1 //; move: li2; clear; lia.
  + by rewrite !cub_d2 subrr !(mulr0, add0r) d2.
- have l0 : (0%N == n.-1) = false by move: n2; clear; lia.
  have l1 : (n.-2 == n.-1) = false by move: n2; clear; lia.
  have eb0 i : (i == n.-1) = false -> (if sp_lin s0 then upd b n.-1 0 else b) i = b i.
    by move=> h; case: ifP => // _; rewrite /upd h.
  split.
    rewrite /piece /= {1 3}/upd l0 eb0 //.
    move: eL; case: (sp_left s0) => /= e.
      rewrite -derivn1 cub_d1 subrr !(mulr0, add0r) /c -/x -/y.
      have h := hp 0%N n2; move: e h; move: (x 1%N - x 0%N) => H e h.
      have -> : 1 / 3%:R * (2%:R * b 0%N + b 1%N) * H = 1 / 3%:R * ((2%:R * b 0%N + b 1%N) * H) by rewrite mulrA.
      rewrite e; field; rewrite h ?nz3 //.
    by rewrite cub_d2 subrr !(mulr0, add0r) e.
  have -> : n.-1 = n.-2.+1 by rewrite nn.
  rewrite /piece /= nn {1 3}/upd l1 eb0 //.
  have l2 : (n.-2.+1 < n)%N by move: n2; clear; lia.
  have h := hp _ l2; rewrite nn in h.
  move: eR; case: (sp_right s0) => /= e.
    rewrite -derivn1 cub_d1 /a /c -/x -/y nn.
    move: e h; move: (x n.-1 - x n.-2) => H e h.
    have -> : (3%:R * (1 / 3%:R * (b n.-1 - b n.-2) / H) * H + 2%:R * b n.-2) * H + ((y n.-1 - y n.-2) / H - 1 / 3%:R * (2%:R * b n.-2 + b n.-1) * H)
      = 1 / 3%:R * ((b n.-2 + 2%:R * b n.-1) * H) + (y n.-1 - y n.-2) / H by field; rewrite h ?nz3.
    by rewrite e; field; rewrite h ?nz3.
  rewrite cub_d2 /a -/x nn -e.
  move: h; move: (x n.-1 - x n.-2) => H h.
  by field; rewrite h ?nz3.
Qed.

End SetPoints.

Section Both.
Variable F : realFieldType.

Lemma set_points_linear (s0 : spline F) (xs ys : seq F) :
  (1 < size xs)%N -> size ys = size xs -> increasing xs ->
  exists s, [/\ set_points s0 xs ys false = Ok s, sp_x s = xs /\ sp_y s = ys,
    sp_a s (size xs).-1 = 0,
    (forall i, (i.+1 < size xs)%N -> (piece s i.+1).[nth 0 xs i.+1] = nth 0 ys i.+1) &
    (forall i, (i.+1 < size xs)%N -> (size (piece s i.+1) <= 2)%N)].
Proof.
move=> n2 sy incr; rewrite /set_points sy ltnn ltnNge n2 /=.
have hp i : (i.+1 < size xs)%N -> nth 0 xs i.+1 - nth 0 xs i != 0.
  by move=> h; rewrite subr_eq0 gt_eqF // incr // ltnSn.
have B i (b : nat -> F) : (i.+1 < size xs)%N -> (if sp_lin s0 then upd b (size xs).-1 0 else b) i = b i.
  by move=> h; case: ifP => // _; rewrite /upd; have -> : (i == (size xs).-1) = false by move: h; clear; lia.
eexists; split; first by reflexivity.
- by [].
- by rewrite /= /upd eqxx.
- move=> i li; rewrite /piece cub_at /= B // /upd.
  have -> : (i == (size xs).-1) = false by move: li; clear; lia.
  have -> : (i < (size xs).-1)%N by move: li; clear; lia.
  by rewrite /= !(mul0r, add0r) divfK ?hp // subrK.
- move=> i li; rewrite /piece /= B // /upd.
  have -> : (i == (size xs).-1) = false by move: li; clear; lia.
  have -> : (i < (size xs).-1)%N by move: li; clear; lia.
  exact: lin_size.
Qed.

Lemma set_points_ok (s0 s : spline F) (xs ys : seq F) cubic :
  (1 < size xs)%N -> size ys = size xs -> increasing xs -> set_points s0 xs ys cubic = Ok s ->
  [/\ sp_x s = xs, sp_y s = ys, sp_a s (size xs).-1 = 0 &
      forall i, (i.+1 < size xs)%N -> (piece s i.+1).[nth 0 xs i.+1] = nth 0 ys i.+1].
Proof.
move=> n2 sy incr; case: cubic => e.
  have [s' [e' [h1 h2] [h3 h4] _ _]] := set_points_cubic s0 n2 sy incr.
  by move: e'; rewrite e => -[->].
have [s' [e' [h1 h2] h3 h4 _]] := set_points_linear s0 n2 sy incr.
by move: e'; rewrite e => -[->].
Qed.

Lemma ok_piecewise (s0 s : spline F) (xs ys : seq F) cubic :
  (1 < size xs)%N -> size ys = size xs -> increasing xs -> set_points s0 xs ys cubic = Ok s ->
  piecewise xs (piece s) (spline_at s).
Proof.
move=> n2 sy incr e; have [ex ey ea hit] := set_points_ok n2 sy incr e.
subst xs ys; exact: at_piecewise.
Qed.

Lemma ok_pieces (s0 s : spline F) (xs ys : seq F) cubic Q :
  (1 < size xs)%N -> size ys = size xs -> increasing xs -> set_points s0 xs ys cubic = Ok s ->
  piecewise xs Q (spline_at s) -> forall k, (k <= size xs)%N -> Q k = piece s k.
Proof.
move=> n2 sy incr e pw; have [ex ey ea hit] := set_points_ok n2 sy incr e.
have pw' := ok_piecewise n2 sy incr e.
subst xs ys; move=> k lk; apply: (@pieces_unique _ s _ Q (spline_at s)) => //.
Qed.

End Both.
