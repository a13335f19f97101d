(* Reading the table of the bare Green function: order of the lines, spline of every entry. *)
From mathcomp Require Import all_ssreflect order ssralg ssrnum ssrint rat poly.
From mathcomp Require Import zify.
From mathcomp.algebra_tactics Require Import ring.
From Verif Require Import Outcome SplineModel SplineSpec SplineProofs GreenModel GreenProofs GreenTableModel.

Set Implicit Arguments.
Unset Strict Implicit.
Unset Printing Implicit Defensive.

Local Open Scope ring_scope.
Import Order.TTheory GRing.Theory Num.Theory.

Lemma obind_ok A B (x : outcome A) (f : A -> outcome B) b : obind x f = Ok b -> exists2 a, x = Ok a & f a = Ok b.
Proof. by case: x => //= a h; exists a. Qed.

Notation obI := (@obind_ok _ _ _ _ _).

Definition row0 := Row 0 0 0 0 0 0.
Definition row_is (r : row) (f s1 s2 t : nat) : bool :=
  [&& r_flavor r == f%:Z, r_site1 r == s1%:Z, r_site2 r == s2%:Z & r_tau r == t%:Z].
Definition row_val (r : row) : rat * rat := (r_re r, r_im r).

Lemma read_linesP f s1 s2 m t0 prev rows q :
  (forall r, prev = Some r -> r_tau r <> t0%:Z) ->
  read_lines f s1 s2 (iota t0 m) prev rows = Ok q ->
  [/\ (m <= size rows)%N, q.1.2 = drop m rows, q.2 = [seq row_val r | r <- take m rows],
      (forall k, (k < m)%N -> row_is (nth row0 rows k) f s1 s2 (t0 + k)) &
      forall r, q.1.1 = Some r -> if m is 0 then prev = Some r else r_tau r = (t0 + m.-1)%:Z].
Proof.
elim: m t0 prev rows q => [|m ih] t0 prev rows q hp /=.
  by case=> <- /=; rewrite drop0 take0.
case: rows => [|r rows] /=.
  case: prev hp => // r hp; case: ifP => // /negbT; rewrite !negb_or !negbK => /andP[_ /eqP e].
  by have := hp r erefl.
case: ifP => // /negbT; rewrite !negb_or !negbK -!andbA => /and4P[h1 h2 h3 h4].
case/obI=> q' e [<-] /=.
have [|l1 l2 l3 l4 l5] := ih t0.+1 (Some r) rows q' _ e.
  by move=> r' [<-]; move/eqP: h4 => ->; lia.
split=> //.
- by rewrite l3.
- case=> [|k] hk /=; first by rewrite addn0 /row_is h1 h2 h3.
  by rewrite -addSnnS l4.
- move=> r' /l5; case: m {ih e l1 l2 l3 l4 l5} => [[<-]|m ->] /=; first by rewrite addn0 (eqP h4).
  by rewrite -addSnnS.
Qed.

Lemma read_linesT f s1 s2 m t0 prev rows :
  (m <= size rows)%N -> (forall k, (k < m)%N -> row_is (nth row0 rows k) f s1 s2 (t0 + k)) ->
  exists p, read_lines f s1 s2 (iota t0 m) prev rows = Ok (p, drop m rows, [seq row_val r | r <- take m rows]).
Proof.
elim: m t0 prev rows => [|m ih] t0 prev rows hm h /=; first by exists prev; rewrite drop0 take0.
case: rows hm h => // r rows hm h /=.
have /and4P[/eqP -> /eqP -> /eqP -> /eqP ->] := h 0%N isT; rewrite addn0 !eqxx /=.
have [|p ->] := ih t0.+1 (Some r) rows hm; first by move=> k hk; rewrite addSnnS; exact: (h k.+1).
by exists p.
Qed.

Lemma read_pairsP cplx n taus ts prev rows tab0 tab :
  (1 < n)%N -> uniq ts -> (forall r, prev = Some r -> r_tau r <> 0) ->
  read_pairs cplx n taus ts prev rows tab0 = Ok tab ->
  [/\ (size ts * n <= size rows)%N,
      (forall f s1 s2, (f, s1, s2) \notin ts -> tab f s1 s2 = tab0 f s1 s2) &
      forall f s1 s2, (f, s1, s2) \in ts ->
        let j := index (f, s1, s2) ts in
        (forall k, (k < n)%N -> row_is (nth row0 rows (j * n + k)) f s1 s2 k) /\
        pair_coeff taus [seq cast_data cplx (row_val r) | r <- take n (drop (j * n) rows)] = Ok (tab f s1 s2)].
Proof.
move=> n1; elim: ts prev rows tab0 => [|[[f s1] s2] ts ih] prev rows tab0 /=.
  by move=> _ _ [<-].
case/andP=> nin ut hp /obI[q /read_linesP[] // l1 l2 l3 l4 l5] /obI[c ec] rd.
have hp' r : q.1.1 = Some r -> r_tau r <> 0.
  by move=> /l5; case: n n1 {hp l1 l2 l3 l4 l5 ec rd ih} => [|[|n]] // _ ->; rewrite add0n /=; lia.
have [h1 h2 h3] := ih _ _ _ ut hp' rd.
split.
- by move: h1; rewrite l2 size_drop mulSn leq_subRL.
- move=> f' s1' s2'; rewrite inE negb_or => /andP[ne nin'].
  by rewrite h2 // (negbTE ne).
move=> f' s1' s2'; rewrite inE eq_sym; case: (eqVneq (f, s1, s2) (f', s1', s2')) => [e|ne] /= hin.
  case: e => <- <- <-; rewrite mul0n drop0; split; first by move=> k hk; rewrite add0n; exact: l4.
  by rewrite h2 // eqxx -ec l3 -map_comp.
have [h4 h5] := h3 _ _ _ hin.
split.
  by move=> k hk; have := h4 k hk; rewrite l2 nth_drop mulSn addnA.
by rewrite mulSn addnC -drop_drop -l2.
Qed.

(* complete tables are read *)
Lemma read_pairsT cplx n taus ts prev rows tab0 :
  (forall data, size data = n -> exists c, pair_coeff taus data = Ok c) ->
  (size ts * n <= size rows)%N ->
  (forall j k, (j < size ts)%N -> (k < n)%N ->
     let: (f, s1, s2) := nth (0%N, 0%N, 0%N) ts j in row_is (nth row0 rows (j * n + k)) f s1 s2 k) ->
  exists tab, read_pairs cplx n taus ts prev rows tab0 = Ok tab.
Proof.
move=> hc; elim: ts prev rows tab0 => [|[[f s1] s2] ts ih] prev rows tab0 /= hs h; first by exists tab0.
have hs1 : (n <= size rows)%N by move: hs; rewrite mulSn; clear; lia.
have [|p ->] := @read_linesT f s1 s2 n 0 prev rows hs1.
  by move=> k hk; have := h 0%N k isT hk; rewrite mul0n add0n.
have [|c ec] := hc [seq cast_data cplx d | d <- [seq row_val r | r <- take n rows]].
  by rewrite !size_map size_takel.
rewrite /= ec /=; apply: ih.
  by rewrite size_drop; move: hs; rewrite mulSn; clear; lia.
by move=> j k hj hk; have := h j.+1 k hj hk; rewrite /= nth_drop mulSn addnA.
Qed.

Lemma horner_swap (h a b c y : rat) : h * (h * (h * a + b) + c) + y = ((a * h + b) * h + c) * h + y.
Proof. by ring. Qed.

Section Grid.
Variables (beta : rat) (n : nat).
Hypothesis b0 : 0 < beta.
Hypothesis n1 : (1 < n)%N.
Notation taus := [seq grid_point beta n t | t <- iota 0 n].

Lemma taus_size : size taus = n. Proof. by rewrite size_map size_iota. Qed.
Lemma taus_nth i : (i < n)%N -> nth 0 taus i = grid_point beta n i.
Proof. by move=> h; rewrite (nth_map 0%N) ?size_iota // nth_iota // add0n. Qed.
Lemma grid_lt i j : (i < j)%N -> grid_point beta n i < grid_point beta n j.
Proof.
move=> ij; rewrite /grid_point.
have m0 : 0 < n%:R - 1 :> rat by rewrite subr_gt0 ltr1n.
by rewrite ltr_pmul2r ?invr_gt0 // ltr_pmul2l // ltr_nat.
Qed.
Lemma taus_inc : increasing (F := [realFieldType of rat]) taus.
Proof.
move=> i j /andP[ij]; rewrite taus_size => jn.
by rewrite !taus_nth ?(ltn_trans ij) // grid_lt.
Qed.
Lemma grid0 : grid_point beta n 0 = 0. Proof. by rewrite /grid_point mulr0 mul0r. Qed.
Lemma grid_last : grid_point beta n n.-1 = beta.
Proof.
rewrite /grid_point; have -> : n.-1%:R = n%:R - 1 :> rat.
  by case: n n1 => // m _ /=; rewrite mulrSr addrK.
by rewrite mulfK // subr_eq0 pnatr_eq1; case: n n1 => [|[]].
Qed.
Lemma grid_in i : (i < n)%N -> 0 <= grid_point beta n i <= beta.
Proof.
move=> li; apply/andP; split.
  by rewrite -[X in X <= _]grid0; case: i li => [|i] // li; apply/ltW/grid_lt.
have : (i <= n.-1)%N by move: li; clear; lia.
rewrite -[X in _ <= X]grid_last leq_eqVlt => /orP[/eqP->|h]; first exact: lexx.
by apply/ltW/grid_lt.
Qed.

Definition natural (data : seq rat) (s : spl) : Prop :=
  set_points (spline_new [realFieldType of rat]) taus data true = Ok s.

Lemma natural_ex data : size data = n -> exists s, natural data s.
Proof.
move=> sd; have [|||s [e _ _ _ _]] := @set_points_cubic [realFieldType of rat] (spline_new _) taus data; rewrite ?taus_size //.
  exact: taus_inc.
by exists s.
Qed.

Lemma pair_coeffT data : size data = n -> exists c, pair_coeff taus data = Ok c.
Proof.
move=> sd; rewrite /pair_coeff.
have [|s1 e1] := @natural_ex [seq d.1 | d <- data]; first by rewrite size_map.
have [|s2 e2] := @natural_ex [seq d.2 | d <- data]; first by rewrite size_map.
by rewrite e1 e2 /=; eexists.
Qed.

Lemma pair_coeffP data c : size data = n -> pair_coeff taus data = Ok c ->
  exists sre sim, [/\ natural [seq d.1 | d <- data] sre, natural [seq d.2 | d <- data] sim &
    forall nf ns coeff f s s2, (f < nf)%N -> (s < ns)%N -> (s2 < ns)%N -> coeff f s s2 = c ->
    forall tau, 0 <= tau <= beta ->
    interpolate (green_grid beta n nf ns coeff) f s s2 tau = Ok (cmk (spline_at sre tau) (spline_at sim tau))].
Proof.
move=> sd; rewrite /pair_coeff.
case/obI=> sre e1 /obI[sim e2] [ec].
exists sre, sim; split=> // nf ns coeff f s s2 lf ls ls2 hc tau ht.
have [k [kn hk ->]] := interpolate_ok coeff b0 n1 lf ls ls2 ht; cbv zeta; rewrite hc -ec.
have H data' s' : size data' = n -> set_points (spline_new [realFieldType of rat]) taus data' true = Ok s' ->
    let h := tau - grid_point beta n k in
    let co p := if get_coeff s' k p is Ok v then v else 0 in
    h * (h * (h * co 3%N + co 2%N) + co 1%N) + co 0%N = spline_at s' tau.
  move=> sd' e'.
  have n1' : (1 < size taus)%N by rewrite taus_size.
  have sd'' : size data' = size taus by rewrite taus_size.
  have [ex ey ea hit] := set_points_ok n1' sd'' taus_inc e'.
  have [_ pm _] := ok_piecewise n1' sd'' taus_inc e'.
  rewrite (pm k) ?taus_size ?taus_nth // ?(ltnW kn) // /piece cub_at ex taus_nth ?(ltnW kn) //.
  rewrite /get_coeff ey sd' leqNgt (ltnW kn) /=.
  exact: horner_swap.
by rewrite /cmk; congr (Ok (_, _)); [apply: (H _ _ _ e1)|apply: (H _ _ _ e2)]; rewrite size_map.
Qed.

End Grid.

(* the spline of the negated data *)
Section Opp.
Variable F : realFieldType.
Definition Rn (u v : nat -> F) := forall j, v j = - u j.

Lemma fold_opp (e e' : (nat -> F) -> nat -> F) (l : seq nat) (u v : nat -> F) :
  (forall u v i, Rn u v -> e' v i = - e u i) -> Rn u v ->
  Rn (foldl (fun x i => upd x i (e x i)) u l) (foldl (fun x i => upd x i (e' x i)) v l).
Proof.
move=> he; elim: l u v => [//|i l ih] u v h /=; apply: ih => j.
by rewrite /upd; case: eqP => // _; exact: he.
Qed.

Lemma lu_solve_opp (A : band F) (b b' : nat -> F) : Rn b b' -> Rn (lu_solve A b) (lu_solve A b').
Proof.
move=> h; rewrite /lu_solve; set D := lu_decompose A.
have z : Rn (fun _ => 0) (fun _ => 0) by move=> j; rewrite oppr0.
have hl : Rn (l_solve D b) (l_solve D b').
  apply: fold_opp z => u v i hu; rewrite !foldl_sum h mulNr !add0r.
  under eq_bigr do rewrite hu mulrN.
  by rewrite sumrN; ring.
apply: fold_opp z => u v i hu; rewrite !foldl_sum hl !add0r.
under eq_bigr do rewrite hu mulrN.
by rewrite sumrN -opprD mulNr.
Qed.

Lemma a_opp (i3 di b0 b1 : F) : 1 * i3 * (- b1 - - b0) * di = - (1 * i3 * (b1 - b0) * di).
Proof. by ring. Qed.
Lemma c_opp (y0 y1 b0 b1 d i3 di : F) :
  (- y1 - - y0) * di - 1 * i3 * (2%:R * - b0 + - b1) * d = - ((y1 - y0) * di - 1 * i3 * (2%:R * b0 + b1) * d).
Proof. by ring. Qed.

Lemma cl_opp (h a b c : F) : 3%:R * - a * h * h + 2%:R * - b * h + - c = - (3%:R * a * h * h + 2%:R * b * h + c).
Proof. by ring. Qed.
Lemma quad_opp (h b c y b' c' y' : F) : b' = - b -> c' = - c -> y' = - y ->
  (b' * h + c') * h + y' = - ((b * h + c) * h + y).
Proof. by move=> -> -> ->; ring. Qed.
Lemma cub_opp (h a b c y a' b' c' y' : F) : a' = - a -> b' = - b -> c' = - c -> y' = - y ->
  ((a' * h + b') * h + c') * h + y' = - (((a * h + b) * h + c) * h + y).
Proof. by move=> -> -> -> ->; ring. Qed.
Lemma upd_opp u v k w w' : Rn u v -> w' = - w -> Rn (upd u k w) (upd v k w').
Proof. by move=> h e j; rewrite /upd; case: eqP. Qed.

Definition irow (x y : nat -> F) (p : band F * (nat -> F)) (i : nat) : band F * (nat -> F) :=
  let: (A, rhs) := p in
  let A1 := bset A i i.-1 (1 / 3%:R * (x i - x i.-1)) in
  let A2 := bset A1 i i (2%:R / 3%:R * (x i.+1 - x i.-1)) in
  let A3 := bset A2 i i.+1 (1 / 3%:R * (x i.+1 - x i)) in
  (A3, upd rhs i ((y i.+1 - y i) / (x i.+1 - x i) - (y i - y i.-1) / (x i - x i.-1))).

Lemma inner_rows_opp n (x y y' : nat -> F) : Rn y y' ->
  (inner_rows n x y').1 = (inner_rows n x y).1 /\ Rn (inner_rows n x y).2 (inner_rows n x y').2.
Proof.
move=> hy.
have E y0 : inner_rows n x y0 = foldl (irow x y0) (band_new F n 1 1, fun _ => 0) (index_iota 1 n.-1) by [].
suff H : forall l A u v, Rn u v -> (foldl (irow x y') (A, v) l).1 = (foldl (irow x y) (A, u) l).1 /\
    Rn (foldl (irow x y) (A, u) l).2 (foldl (irow x y') (A, v) l).2.
  by rewrite !E; apply: H => j; rewrite oppr0.
elim=> [//|i l ih] A u v h; apply: ih => j.
by rewrite /upd !hy; case: eqP => // _; ring.
Qed.

Lemma set_points_opp (xs ys ys' : seq F) s s' : Rn (nth 0 ys) (nth 0 ys') -> size ys' = size ys ->
  set_points (spline_new F) xs ys true = Ok s -> set_points (spline_new F) xs ys' true = Ok s' ->
  forall t, spline_at s' t = - spline_at s t.
Proof.
move=> hy sy; rewrite /set_points sy; case: ifP => // _.
have [e1 h1] := inner_rows_opp (size xs) (nth 0 xs) hy.
case: (inner_rows _ _ (nth 0 ys)) e1 h1 => A r /=; case: (inner_rows _ _ (nth 0 ys')) => A' r' /= -> hr.
have hs : Rn (upd (upd r 0 0) (size xs).-1 0) (upd (upd r' 0 0) (size xs).-1 0).
  by move=> j; rewrite /upd; case: eqP => _; rewrite ?oppr0 //; case: eqP => _; rewrite ?oppr0.
have := lu_solve_opp (bset (bset (bset (bset A 0 0 2%:R) 0 1 0) (size xs).-1 (size xs).-1 2%:R) (size xs).-1 (size xs).-2 0) hs.
move: (lu_solve _ _) (lu_solve _ _) => b' b hb [<-] [<-] t.
set x := nth 0 xs; set n := size xs.
pose a (b : nat -> F) i := 1 / 3%:R * (b i.+1 - b i) / (x i.+1 - x i).
pose c (y b : nat -> F) i := (y i.+1 - y i) / (x i.+1 - x i) - 1 / 3%:R * (2%:R * b i + b i.+1) * (x i.+1 - x i).
have ha : Rn (a b) (a b') by move=> j; rewrite /a !hb; exact: a_opp.
have hc : Rn (c (nth 0 ys) b) (c (nth 0 ys') b') by move=> j; rewrite /c !hb !hy; exact: c_opp.
have ha' : Rn (upd (a b) n.-1 0) (upd (a b') n.-1 0).
  by apply: upd_opp; rewrite ?oppr0.
pose h := x n.-1 - x n.-2.
pose cl (a b c : nat -> F) := 3%:R * a n.-2 * h * h + 2%:R * b n.-2 * h + c n.-2.
have hc' : Rn (upd (c (nth 0 ys) b) n.-1 (cl (upd (a b) n.-1 0) b (c (nth 0 ys) b))) (upd (c (nth 0 ys') b') n.-1 (cl (upd (a b') n.-1 0) b' (c (nth 0 ys') b'))).
  apply: upd_opp => //; rewrite /cl ha' hb hc; exact: cl_opp.
rewrite /spline_at /= -/x -/n; case: ifP => _; last case: ifP => _.
- exact: (quad_opp _ (hb 0%N) (hc 0%N) (hy 0%N)).
- exact: (quad_opp _ (hb n.-1) (hc' n.-1) (hy n.-1)).
- move: ((lower_bound xs t).-1) => k.
  exact: (cub_opp _ (ha' k) (hb k) (hc' k) (hy k)).
Qed.
End Opp.

Lemma nth_pairs (A B C : Type) (a0 : A) (b0 : B) (c0 : C) (f : A -> B -> C) (s : seq A) (t : seq B) j k :
  (j < size s)%N -> (k < size t)%N -> nth c0 [seq f x y | x <- s, y <- t] (j * size t + k) = f (nth a0 s j) (nth b0 t k).
Proof.
elim: s j => // x s ih [|j] /=; rewrite ?ltnS => hj hk.
  by rewrite add0n nth_cat size_map hk (nth_map b0).
by rewrite nth_cat size_map mulSn -addnA ltnNge leq_addr /= addKn ih.
Qed.

Lemma triples_uniq nf ns : uniq (triples nf ns).
Proof.
apply: allpairs_uniq; rewrite ?iota_uniq //; last by move=> [p s] [p' s'].
by apply: allpairs_uniq; rewrite ?iota_uniq // => -[a b] [a' b'].
Qed.
Lemma triples_size nf ns : size (triples nf ns) = (nf * ns * ns)%N.
Proof. by rewrite /triples !size_allpairs !size_iota. Qed.
Lemma mem_triples nf ns f s1 s2 : ((f, s1, s2) \in triples nf ns) = [&& f < nf, s1 < ns & s2 < ns]%N.
Proof.
apply/allpairsP/idP => [[[p t] /= [/allpairsP[[a b] /= [ha hb ->]] ht [-> -> ->]]]|/and3P[h1 h2 h3]].
  by move: ha hb ht; rewrite !mem_iota !add0n /= => -> -> ->.
exists ((f, s1), s2); split=> //=; last by rewrite mem_iota.
by apply/allpairsP; exists (f, s1); rewrite !mem_iota.
Qed.

Lemma obindE A B (x : A) (f : A -> outcome B) : obind (Ok x) f = f x. Proof. reflexivity. Qed.
Lemma check_points_cons g f s s2 tau ps : check_points g ((f, s, s2, tau) :: ps) =
    obind (interpolate g f s s2 tau) (fun z => obind (interpolate g f s2 s tau) (fun w =>
    if not_conj z w then Throw else check_points g ps)).
Proof. reflexivity. Qed.
Lemma check_pointsP g ps : check_points g ps = Ok tt -> forall f s s2 tau, (f, s, s2, tau) \in ps ->
  exists z w, [/\ interpolate g f s s2 tau = Ok z, interpolate g f s2 s tau = Ok w & not_conj z w = false].
Proof.
elim: ps => [_ f s s2 tau|[[[f s] s2] tau] ps ih]; first by rewrite in_nil.
rewrite check_points_cons.
case e1 : (interpolate g f s s2 tau) => [z| | |]; [|discriminate..].
case e2 : (interpolate g f s2 s tau) => [w| | |]; [|discriminate..].
rewrite ![obind (Ok _) _]obindE; case e3 : (not_conj z w); first discriminate.
move=> e f' s' s2' tau'; rewrite in_cons => /orP[/eqP[-> -> -> ->]|h]; last exact: (ih e).
exists z, w; split; [exact: e1|exact: e2|exact: e3].
Qed.
Lemma check_pointsT g ps : (forall f s s2 tau, (f, s, s2, tau) \in ps ->
  exists z w, [/\ interpolate g f s s2 tau = Ok z, interpolate g f s2 s tau = Ok w & not_conj z w = false]) -> check_points g ps = Ok tt.
Proof.
elim: ps => [_|[[[f s] s2] tau] ps ih h]; first reflexivity.
have [z [w [e1 e2 nc]]] := h f s s2 tau (mem_head _ _).
rewrite check_points_cons e1 obindE e2 obindE nc.
by apply: ih => f' s' s2' tau' hin; apply: h; rewrite in_cons hin orbT.
Qed.
