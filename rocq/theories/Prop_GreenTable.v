(* Property theorems: C62 (the table of the bare Green function). *)
From mathcomp Require Import all_ssreflect order ssralg ssrnum ssrint rat poly.
From mathcomp Require Import zify.
From mathcomp.algebra_tactics Require Import ring.
From Verif Require Import Outcome SplineModel SplineSpec SplineProofs Prop_Spline GreenModel GreenProofs.
From Verif Require Import GreenTableModel GreenTableProofs.

Set Implicit Arguments.
Unset Strict Implicit.
Unset Printing Implicit Defensive.

Local Open Scope ring_scope.
Import Order.TTheory GRing.Theory Num.Theory.

(* ------------------------------------------------------------ specification *)

(* the position in the file of the line of flavor f, sites s1 and s2 and time index t *)
Definition line (ns nt f s1 s2 t : nat) : nat := (((f * ns + s1) * ns + s2) * nt + t)%N.

(* every line carries the indices that belong to its position *)
Definition ordered (nf ns nt : nat) (rows : seq row) : Prop :=
  (nf * ns * ns * nt <= size rows)%N /\
  forall f s1 s2 t, (f < nf)%N -> (s1 < ns)%N -> (s2 < ns)%N -> (t < nt)%N ->
    row_is (nth row0 rows (line ns nt f s1 s2 t)) f s1 s2 t.

(* a natural cubic spline: pieces of degree at most three, twice continuously differentiable,
   with vanishing second derivative at both ends *)
Definition natural_cubic (xs : seq rat) (f : rat -> rat) : Prop :=
  exists Q : nat -> {poly rat},
    [/\ piecewise (F := [realFieldType of rat]) xs Q f,
        (forall i, (i <= size xs)%N -> (size (Q i) <= 4)%N),
        (forall i, (i < size xs)%N -> smooth_at (F := [realFieldType of rat]) 2 xs Q i) &
        (Q 1%N)^`(2).[nth 0 xs 0] = 0 /\ (Q (size xs).-1)^`(2).[nth 0 xs (size xs).-1] = 0].

Definition time_grid (beta : rat) (nt : nat) : seq rat := [seq beta * t%:R / (nt%:R - 1) | t <- iota 0 nt].

Definition tolerance : rat := 1 / 10%:R ^+ 8.
Lemma eps8E : eps8 = tolerance. Proof. unfold eps8, tolerance; exact: erefl. Qed.

(* ------------------------------------------------------------ auxiliary *)

Lemma index_triples nf ns f s1 s2 : (f < nf)%N -> (s1 < ns)%N -> (s2 < ns)%N ->
  index (f, s1, s2) (triples nf ns) = ((f * ns + s1) * ns + s2)%N /\
  nth (0%N, 0%N, 0%N) (triples nf ns) ((f * ns + s1) * ns + s2) = (f, s1, s2).
Proof.
move=> lf l1 l2.
have lj : (f * ns + s1 < nf * ns)%N.
  by apply: (@leq_trans (f.+1 * ns)); rewrite ?leq_mul2r ?lf ?orbT // mulSn addnC ltn_add2r.
have lk : ((f * ns + s1) * ns + s2 < nf * ns * ns)%N.
  by apply: (@leq_trans ((f * ns + s1).+1 * ns)); rewrite ?leq_mul2r ?lj ?orbT // mulSn addnC ltn_add2r.
have e : nth (0%N, 0%N, 0%N) (triples nf ns) ((f * ns + s1) * ns + s2) = (f, s1, s2).
  have h1 := @nth_pairs _ _ _ 0%N 0%N (0%N, 0%N) (fun a b => (a, b)) (iota 0 nf) (iota 0 ns) f s1.
  rewrite !size_iota !nth_iota // in h1.
  have h2 := @nth_pairs _ _ _ (0%N, 0%N) 0%N (0%N, 0%N, 0%N) (fun p s => (p, s))
     [seq (f, s1) | f <- iota 0 nf, s1 <- iota 0 ns] (iota 0 ns) (f * ns + s1) s2.
  rewrite size_allpairs !size_iota nth_iota // in h2.
  by rewrite /triples h2 // h1.
by split=> //; rewrite -[X in index X]e index_uniq ?triples_uniq // triples_size.
Qed.

Lemma line_lt nf ns nt f s1 s2 t : (f < nf)%N -> (s1 < ns)%N -> (s2 < ns)%N -> (t < nt)%N ->
  (line ns nt f s1 s2 t < nf * ns * ns * nt)%N.
Proof.
move=> lf l1 l2 lt.
have h a b n m : (a < n)%N -> (b < m)%N -> (a * m + b < n * m)%N.
  by move=> la lb; apply: (@leq_trans (a.+1 * m)); rewrite ?leq_mul2r ?la ?orbT // mulSn addnC ltn_add2r.
by do 3 (apply: (h) => //).
Qed.

Lemma not_conjP z w : not_conj z w = false -> (cre z - cre w) ^+ 2 + (cim z + cim w) ^+ 2 <= tolerance ^+ 2.
Proof.
rewrite /not_conj -eps8E; move: eps8 (_ + _ : rat) => x y h.
by rewrite leNgt h.
Qed.

Lemma not_conjT z w : cre z = cre w -> cim w = - cim z -> not_conj z w = false.
Proof.
rewrite /not_conj; move: eps8 (cre z) (cre w) (cim z) (cim w) => x a b c d -> ->.
have -> : (b - b) ^+ 2 + (c - c) ^+ 2 = 0 by ring.
by apply/negbTE; rewrite -leNgt sqr_ge0.
Qed.

Lemma read_itime_dataT cplx h rows beta table : `|h_beta h - beta| <= tolerance ->
  read_pairs cplx (h_tau h) [seq grid_point beta (h_tau h) t | t <- iota 0 (h_tau h)] (triples (h_flavor h) (h_site h)) None rows (fun _ _ _ _ _ => 0) = Ok table ->
  check_points (green_grid beta (h_tau h) (h_flavor h) (h_site h) table)
    [seq (t, tau) | t <- triples (h_flavor h) (h_site h), tau <- [:: 0; 1 / 2%:R * beta; beta]] = Ok tt ->
  read_itime_data cplx h rows beta (h_flavor h) (h_site h) = Ok (green_grid beta (h_tau h) (h_flavor h) (h_site h) table).
Proof.
rewrite /read_itime_data -eps8E; move: eps8 => tol.
rewrite leNgt => /negbTE hb rd ck.
by rewrite !eqxx hb rd /= ck.
Qed.

Section Read.
Variables (cplx : bool) (h : header) (rows : seq row) (beta : rat) (flavors sites : nat) (table : nat -> nat -> nat -> nat -> nat -> cnum).
Hypothesis n1 : (1 < h_tau h)%N.
Hypothesis rd : read_pairs cplx (h_tau h) [seq grid_point beta (h_tau h) t | t <- iota 0 (h_tau h)] (triples flavors sites) None rows (fun _ _ _ _ _ => 0) = Ok table.

Lemma read_ordered : ordered flavors sites (h_tau h) rows.
Proof.
have [|l1 _ l3] := read_pairsP n1 (triples_uniq flavors sites) _ rd; first by [].
split; first by move: l1; rewrite triples_size.
move=> f s1 s2 t lf ls1 ls2 lt.
have [|l4 _] := l3 f s1 s2; first by rewrite mem_triples lf ls1 ls2.
by have := l4 t lt; rewrite (index_triples lf ls1 ls2).1.
Qed.

Definition column (f s1 s2 : nat) : seq (rat * rat) :=
  [seq cast_data cplx (row_val r) | r <- take (h_tau h) (drop (((f * sites + s1) * sites + s2) * h_tau h) rows)].

Lemma line_sub f s1 s2 t : (f < flavors)%N -> (s1 < sites)%N -> (s2 < sites)%N -> (t < h_tau h)%N ->
  (line sites (h_tau h) f s1 s2 t < size rows)%N.
Proof. by move=> lf l1 l2 lt; apply: leq_trans read_ordered.1; exact: line_lt. Qed.

Lemma column_size f s1 s2 : (f < flavors)%N -> (s1 < sites)%N -> (s2 < sites)%N -> size (column f s1 s2) = h_tau h.
Proof.
move=> lf l1 l2; rewrite size_map size_takel // size_drop.
have := @line_sub f s1 s2 (h_tau h).-1 lf l1 l2; rewrite /line.
move: (((f * sites + s1) * sites + s2) * h_tau h)%N n1 => k; clear; lia.
Qed.

Lemma column_nth f s1 s2 t : (f < flavors)%N -> (s1 < sites)%N -> (s2 < sites)%N -> (t < h_tau h)%N ->
  nth (0, 0) (column f s1 s2) t = cast_data cplx (row_val (nth row0 rows (line sites (h_tau h) f s1 s2 t))).
Proof.
move=> lf l1 l2 lt; rewrite (nth_map row0); first by rewrite nth_take // nth_drop.
by rewrite -(size_map (fun r => cast_data cplx (row_val r))) column_size.
Qed.

Lemma read_splines f s1 s2 : 0 < beta -> (f < flavors)%N -> (s1 < sites)%N -> (s2 < sites)%N ->
  exists sre sim,
  [/\ natural beta (h_tau h) [seq d.1 | d <- column f s1 s2] sre, natural beta (h_tau h) [seq d.2 | d <- column f s1 s2] sim &
      forall tau, 0 <= tau <= beta -> interpolate (green_grid beta (h_tau h) flavors sites table) f s1 s2 tau = Ok (cmk (spline_at sre tau) (spline_at sim tau))].
Proof.
move=> b0 lf l1 l2.
have [|_ _ l3] := read_pairsP n1 (triples_uniq flavors sites) _ rd; first by [].
have [|_ pc] := l3 f s1 s2; first by rewrite mem_triples lf l1 l2.
rewrite (index_triples lf l1 l2).1 in pc.
have [sre [sim [e1 e2 e3]]] := pair_coeffP b0 n1 (column_size lf l1 l2) pc.
by exists sre, sim; split=> // tau ht; apply: e3.
Qed.

End Read.

Section Accepted.
Variables (cplx : bool) (h : header) (rows : seq row) (beta : rat) (flavors sites : nat) (g : green cnum).
Hypothesis acc : read_itime_data cplx h rows beta flavors sites = Ok g.

Lemma accepted : exists table,
  [/\ h_flavor h = flavors /\ h_site h = sites, `|h_beta h - beta| <= tolerance,
      read_pairs cplx (h_tau h) [seq grid_point beta (h_tau h) t | t <- iota 0 (h_tau h)] (triples flavors sites) None rows (fun _ _ _ _ _ => 0) = Ok table,
      g = green_grid beta (h_tau h) flavors sites table &
      check_points g [seq (t, tau) | t <- triples flavors sites, tau <- [:: 0; 1 / 2%:R * beta; beta]] = Ok tt].
Proof.
move: acc; rewrite /read_itime_data; case e0: (_ || _); first discriminate.
move/negbT: e0; rewrite negb_or => /andP[/negPn/eqP <- /negPn/eqP <-].
case hb: (_ < _); first discriminate.
move/negbT: hb; rewrite -leNgt => hb.
case/obI=> table e1 /obI[[] e2] [eg].
exists table; split; [by []|by rewrite -eps8E; exact: hb|exact: e1|by []|].
by rewrite -eg.
Qed.

End Accepted.

Lemma natural_curve beta n data s : 0 < beta -> (1 < n)%N -> size data = n -> natural beta n data s ->
  natural_cubic (time_grid beta n) (spline_at s) /\
  forall i, (i < n)%N -> spline_at s (beta * i%:R / (n%:R - 1)) = nth 0 data i.
Proof.
move=> b0 n1 sd nat.
have sz : size [seq grid_point beta n t | t <- iota 0 n] = n by exact: taus_size.
have [||| s' [Q [e hit [pw sQ] [sm1 sm2] bc]]] := @C44_spline [realFieldType of rat] (spline_new _) [seq grid_point beta n t | t <- iota 0 n] data; rewrite ?sz //.
  exact: taus_inc.
move: nat e; rewrite /natural => -> [es]; rewrite -es in hit pw.
split; last by move=> i li; have := hit i; rewrite sz taus_nth //; apply.
exists Q; split=> // i li.
case: (boolP ((i == 0%N) || (i == n.-1))) => hi.
  by apply: sm2; case/orP: hi => /eqP ->; [left|right; rewrite sz].
by apply: sm1; rewrite sz; move: li hi; rewrite size_map size_iota; clear; lia.
Qed.

(* ------------------------------------------------------------------ C62 *)

(* A table is accepted only if its header agrees with the parameters and every line carries
   the indices of its position; a file that is too short is never accepted. *)
Theorem C62_order :
  forall (cplx : bool) (h : header) (rows : seq row) (beta : rat) (flavors sites : nat) (g : green cnum),
    (1 < h_tau h)%N -> read_itime_data cplx h rows beta flavors sites = Ok g ->
    [/\ h_flavor h = flavors, h_site h = sites, `|h_beta h - beta| <= tolerance &
        ordered flavors sites (h_tau h) rows].
Proof.
move=> cplx h rows beta nf ns g n1 acc; have [table [[e1 e2] e3 rd _ _]] := accepted acc.
split; [exact: e1|exact: e2|exact: e3|exact: (read_ordered n1 rd)].
Qed.
Print Assumptions C62_order.

(* The Green function of an accepted table takes at every time of the grid exactly the value
   of its line (its real part, if the program works with real numbers), and in between, real
   and imaginary part are natural cubic splines. *)
Theorem C62_table :
  forall (cplx : bool) (h : header) (rows : seq row) (beta : rat) (flavors sites : nat) (g : green cnum),
    (1 < h_tau h)%N -> 0 < beta -> read_itime_data cplx h rows beta flavors sites = Ok g ->
    forall f s1 s2, (f < flavors)%N -> (s1 < sites)%N -> (s2 < sites)%N ->
    exists re im : rat -> rat,
      [/\ (forall tau, 0 <= tau <= beta -> interpolate g f s1 s2 tau = Ok (cmk (re tau) (im tau))),
          natural_cubic (time_grid beta (h_tau h)) re,
          natural_cubic (time_grid beta (h_tau h)) im &
          forall t, (t < h_tau h)%N ->
            let r := nth row0 rows (line sites (h_tau h) f s1 s2 t) in
            let tau := beta * t%:R / ((h_tau h)%:R - 1) in
            re tau = r_re r /\ im tau = (if cplx then r_im r else 0)].
Proof.
move=> cplx h rows beta nf ns g n1 b0 acc f s1 s2 lf l1 l2.
have [table [_ _ rd -> _]] := accepted acc.
have [sre [sim [e1 e2 e3]]] := read_splines n1 rd b0 lf l1 l2.
have sz := column_size n1 rd lf l1 l2.
have [|c1 v1] := natural_curve b0 n1 _ e1; first by rewrite size_map.
have [|c2 v2] := natural_curve b0 n1 _ e2; first by rewrite size_map.
exists (spline_at sre), (spline_at sim); split=> // t lt; cbv zeta.
rewrite v1 // v2 // !(nth_map (0, 0)) ?sz //.
by rewrite (column_nth n1 rd).
Qed.
Print Assumptions C62_table.

(* Its values at 0, beta / 2 and beta are Hermitian up to the tolerance. *)
Theorem C62_hermitian :
  forall (cplx : bool) (h : header) (rows : seq row) (beta : rat) (flavors sites : nat) (g : green cnum),
    read_itime_data cplx h rows beta flavors sites = Ok g ->
    forall f s1 s2 tau, (f < flavors)%N -> (s1 < sites)%N -> (s2 < sites)%N ->
    tau \in [:: 0; 1 / 2%:R * beta; beta] ->
    exists z w, [/\ interpolate g f s1 s2 tau = Ok z, interpolate g f s2 s1 tau = Ok w &
      (cre z - cre w) ^+ 2 + (cim z + cim w) ^+ 2 <= tolerance ^+ 2].
Proof.
move=> cplx h rows beta nf ns g acc f s1 s2 tau lf l1 l2 ht.
have [table [_ _ _ _ ck]] := accepted acc.
have [|z [w [e1 e2 e3]]] := check_pointsP ck (f := f) (s := s1) (s2 := s2) (tau := tau).
  by apply/allpairsP; exists ((f, s1, s2), tau); split=> //; rewrite mem_triples lf l1 l2.
exists z, w; split; [exact: e1|exact: e2|].
exact: (not_conjP e3).
Qed.
Print Assumptions C62_hermitian.

(* Every complete, ordered and exactly Hermitian table with a matching header is accepted. *)
Theorem C62_accepts :
  forall (cplx : bool) (h : header) (rows : seq row) (beta : rat),
    (1 < h_tau h)%N -> 0 < beta -> `|h_beta h - beta| <= tolerance ->
    ordered (h_flavor h) (h_site h) (h_tau h) rows ->
    (forall f s1 s2 t, (f < h_flavor h)%N -> (s1 < h_site h)%N -> (s2 < h_site h)%N -> (t < h_tau h)%N ->
       let r := nth row0 rows (line (h_site h) (h_tau h) f s1 s2 t) in
       let r' := nth row0 rows (line (h_site h) (h_tau h) f s2 s1 t) in
       r_re r = r_re r' /\ (cplx -> r_im r = - r_im r')) ->
    exists g, read_itime_data cplx h rows beta (h_flavor h) (h_site h) = Ok g.
Proof.
move=> cplx h rows beta n1 b0 hb [sz ord] herm.
have [|||table rd] := @read_pairsT cplx (h_tau h) [seq grid_point beta (h_tau h) t | t <- iota 0 (h_tau h)]
    (triples (h_flavor h) (h_site h)) None rows (fun _ _ _ _ _ => 0).
- by move=> data sd; apply: pair_coeffT.
- by rewrite triples_size.
- move=> j k; rewrite triples_size => lj lk.
  case e: (nth _ _ j) => [[f s1] s2].
  have: (f, s1, s2) \in triples (h_flavor h) (h_site h) by rewrite -e mem_nth // triples_size.
  rewrite mem_triples => /and3P[lf l1 l2].
  have ej : j = ((f * h_site h + s1) * h_site h + s2)%N.
    rewrite -(index_triples lf l1 l2).1 -e index_uniq ?triples_uniq // triples_size //.
  by rewrite ej; exact: ord.
exists (green_grid beta (h_tau h) (h_flavor h) (h_site h) table).
apply: (read_itime_dataT hb rd); apply: check_pointsT; clear hb.
move=> f s1 s2 tau /allpairsP[[[[f' s1'] s2'] tau'] [/= hin ht [-> -> -> ->]]] {f s1 s2 tau}.
move: f' s1' s2' tau' hin ht => f s1 s2 tau; rewrite mem_triples => /and3P[lf l1 l2] ht.
have ht' : 0 <= tau <= beta.
  move: ht; rewrite !in_cons in_nil orbF => /or3P[] /eqP ->; rewrite ?lexx ?(ltW b0) //.
  by rewrite mulr_ge0 ?(ltW b0) //= div1r ler_pdivr_mull ?ltr0n // ler_pmull // ler1n.
have [sre [sim [e1 e2 e3]]] := read_splines n1 rd b0 lf l1 l2.
have [sre' [sim' [e1' e2' e3']]] := read_splines n1 rd b0 lf l2 l1.
have c12 := column_size n1 rd lf l1 l2; have c21 := column_size n1 rd lf l2 l1.
have cre : [seq d.1 | d <- column cplx h rows (h_site h) f s1 s2] = [seq d.1 | d <- column cplx h rows (h_site h) f s2 s1].
  apply: (@eq_from_nth _ 0); rewrite !size_map; first by move: c12 c21; rewrite !size_map => -> ->.
  rewrite -(size_map (fun r => cast_data cplx (row_val r))) c12 => t lt.
  rewrite !(nth_map (0, 0)) ?c12 ?c21 // !(column_nth n1 rd) //=.
  by have [-> _] := herm f s1 s2 t lf l1 l2 lt.
have es : sre = sre' by move: e1 e1'; rewrite /natural cre => -> [].
have ei : spline_at sim' tau = - spline_at sim tau.
  apply: (set_points_opp _ _ e2 e2'); last by rewrite !size_map -!(size_map (fun r => cast_data cplx (row_val r))) c12 c21.
  move=> t; case: (ltnP t (h_tau h)) => lt; last by rewrite !nth_default ?oppr0 // size_map ?c12 ?c21.
  rewrite !(nth_map (0, 0)) ?c12 ?c21 // !(column_nth n1 rd) //=.
  have [_ hi] := herm f s2 s1 t lf l2 l1 lt.
  by case: cplx hi {rd e1 e1' e2 e2' c12 c21 cre herm} => hi; rewrite ?oppr0 // hi.
exists (cmk (spline_at sre tau) (spline_at sim tau)), (cmk (spline_at sre' tau) (spline_at sim' tau)).
split; [exact: e3|exact: e3'|].
by rewrite -es; apply: not_conjT; [reflexivity|exact: ei].
Qed.
Print Assumptions C62_accepts.

(* ------------------------------------------------------------------ examples *)

(* one flavor, two sites, three times, beta = 2; the last line of the file is line 11 *)
Definition ex_header : header := Header 1 2 3 2%:R.
Definition ex_rows : seq row :=
  [seq Row 0 (val_.1.1)%:Z (val_.1.2)%:Z (val_.2)%:Z
     (- (1 + val_.1.1 + val_.1.2 + val_.2)%N%:R) (val_.1.1%:R - val_.1.2%:R)
  | val_ <- [seq (p, t) | p <- [seq (a, b) | a <- iota 0 2, b <- iota 0 2], t <- iota 0 3]].

Lemma ex_ordered : ordered 1 2 3 ex_rows.
Proof.
split; first by [].
move=> f s1 s2 t; rewrite ltnS leqn0 => /eqP ->.
by case: s1 => [|[|[]]] //; case: s2 => [|[|[]]] //; case: t => [|[|[|[]]]].
Qed.

Example C62_ex : exists g, read_itime_data true ex_header ex_rows 2%:R 1 2 = Ok g /\
  exists re im : rat -> rat, interpolate g 0 1 0 1 = Ok (cmk (re 1) (im 1)) /\ re 1 = - 3%:R /\ im 1 = 1.
Proof.
have [|||||g eg] := @C62_accepts true ex_header ex_rows 2%:R.
- by [].
- by [].
- rewrite subrr normr0 /tolerance div1r invr_ge0; exact: exprn_ge0.
- exact: ex_ordered.
- move=> f s1 s2 t; rewrite ltnS leqn0 => /eqP ->.
  by case: s1 => [|[|[]]] //; case: s2 => [|[|[]]] //; case: t => [|[|[|[]]]].
exists g; split; first exact: eg.
have [re [im [h1 _ _ h2]]] := C62_table (isT : 1 < h_tau ex_header)%N (isT : 0 < (2%:R : rat)) eg (isT : 0 < 1)%N (isT : 1 < 2)%N (isT : 0 < 2)%N.
exists re, im; split; first by apply: h1.
have [] := h2 1%N isT; have -> : 2%:R * 1%:R / ((h_tau ex_header)%:R - 1) = 1 :> rat by [].
by move=> -> ->; clear; split; apply/eqP; vm_compute.
Qed.

(* without its last line the same file is not accepted *)
Example C62_ex_short : forall g, read_itime_data true ex_header (take 11 ex_rows) 2%:R 1 2 <> Ok g.
Proof.
by move=> g e; have [_ _ _ []] := C62_order (isT : 1 < h_tau ex_header)%N e.
Qed.

(* nor with two lines exchanged *)
Example C62_ex_swap : forall g,
  read_itime_data true ex_header (nth row0 ex_rows 1 :: nth row0 ex_rows 0 :: drop 2 ex_rows) 2%:R 1 2 <> Ok g.
Proof.
move=> g e; have [_ _ _ [_ h]] := C62_order (isT : 1 < h_tau ex_header)%N e.
by have := h 0%N 0%N 0%N 0%N isT isT isT isT.
Qed.
