(* C81: update_cutoff of the histograms.  C82: the learning of the proposal rates. *)
From mathcomp Require Import all_ssreflect order ssralg ssrnum ssrint rat.
From mathcomp Require Import zify.
From mathcomp.algebra_tactics Require Import ring.
From Verif Require Import Outcome GreenModel GreenProofs LegendreModel LegendreProofs HistModel HistProofs Prop_Hist CutModel.

Set Implicit Arguments.
Unset Strict Implicit.
Unset Printing Implicit Defensive.

Local Open Scope ring_scope.
Import Order.TTheory GRing.Theory Num.Theory.

(* ------------------------------------------------------------------ specification *)

(* the total of v over the bins of [0, M) whose centre lies in quarter q of [0, maxdist) *)
Definition sp_quarter (v : seq rat) (M maxdist : rat) (q : nat) : rat :=
  \sum_(i < size v | in_sbin 4 maxdist q ((i%:R + 1 / 2%:R) * (M / (size v)%:R))) nth 0 v i.

(* number of samples and mean value in a quarter *)
Definition sp_num (h : shist) (maxdist : rat) (q : nat) : rat := sp_quarter (sh_counter h) (sh_max h) maxdist q.
Definition sp_mean (h : shist) (maxdist : rat) (q : nat) : rat :=
  sp_quarter (sh_sum h) (sh_max h) maxdist q / sp_num h maxdist q.

(* ------------------------------------------------------------------ C81 *)

Lemma dmaxE a b : dmax a b = Num.max a b.
Proof. by rewrite /dmax maxElt. Qed.

Lemma cut_loop4 (N m S : nat -> rat) : (forall q, m q = S q / N q) ->
  exists b x, cut_loop [:: (N 0%N, S 0%N); (N 1%N, S 1%N); (N 2%N, S 2%N); (N 3%N, S 3%N)] (-1) = (b, x) /\
    [/\ b = ~~ all (fun q => 100%:R <= N q) (iota 0 4),
      ~~ b -> (x < 0) = ~~ has (fun q => 0 <= m q) (iota 0 4) &
      ~~ b -> 0 <= x -> (exists2 t, (t < 4)%N & x = m t) /\ forall q, (q < 4)%N -> m q <= x].
Proof.
move=> em; rewrite /cut_loop; move: (100%:R : rat) => M /=; rewrite !andbT !orbF.
case: (ltP (N 0%N)) => h0; first by exists true, (-1).
case: (ltP (N 1%N)) => h1; first by eexists true, _.
case: (ltP (N 2%N)) => h2; first by eexists true, _.
case: (ltP (N 3%N)) => h3; first by eexists true, _.
rewrite -!em; exists false; eexists; split; first reflexivity.
rewrite !dmaxE; split=> // _.
  by rewrite !lt_maxl ltrN10 /= !negb_or -!ltNge !andbA.
move=> hx; split; last by case=> [|[|[|[|q]]]] // _; rewrite !le_maxr lexx ?orbT.
have H (a b : rat) : Num.max a b = a \/ Num.max a b = b by rewrite maxElt; case: ifP => _; [right|left].
have n1 : ~ 0 <= -1 :> rat by rewrite oppr_ge0 ler10.
move: hx; case: (H (Num.max (Num.max (Num.max (-1) (m 0%N)) (m 1%N)) (m 2%N)) (m 3%N)) => ->; last by exists 3%N.
case: (H (Num.max (Num.max (-1) (m 0%N)) (m 1%N)) (m 2%N)) => ->; last by exists 2%N.
case: (H (Num.max (-1) (m 0%N)) (m 1%N)) => ->; last by exists 1%N.
by case: (H (-1) (m 0%N)) => ->; [move/n1|exists 0%N].
Qed.

Lemma quarterP v M maxdist : 0 < M -> 0 < maxdist -> is_int32 (floorq (4%:R * M / maxdist)) ->
  rebin2 v M maxdist 4 = Ok [seq sp_quarter v M maxdist q | q <- iota 0 4].
Proof.
move=> M0 d0 i32; have [new -> [sz h]] := C49_rebin_range v M0 d0 i32.
congr Ok; apply: (@eq_from_nth _ 0); rewrite sz ?size_map ?size_iota // => q hq.
by rewrite h // (nth_map 0%N) ?size_iota // nth_iota.
Qed.

(* the cutoff is changed if and only if every quarter has at least 100 samples and some quarter
   has a mean value that is not negative; it is changed by comparing the mean value in the last
   quarter with the largest one *)
Theorem C81_cutoff :
  forall (h : shist) (ratio maxdist mag : rat),
    0 < sh_max h -> 0 < maxdist -> is_int32 (floorq (4%:R * sh_max h / maxdist)) ->
    let N := sp_num h maxdist in let m := sp_mean h maxdist in
    exists b d, update_cutoff h ratio maxdist mag = Ok (b, d) /\
      [/\ b <-> (forall q, (q < 4)%N -> 100%:R <= N q) /\ exists2 q, (q < 4)%N & 0 <= m q,
        ~~ b -> d = maxdist &
        b -> forall t, (t < 4)%N -> (forall q, (q < 4)%N -> m q <= m t) ->
          [/\ ratio * m t < m 3%N -> d = maxdist * mag, m 3%N < ratio * m t -> d = maxdist / mag &
              m 3%N = ratio * m t -> d = maxdist]].
Proof.
move=> h ratio maxdist mag M0 d0 i32 N m; rewrite /update_cutoff !quarterP //.
rewrite [iota 0 4]/= ![map _ _]/= /obind [zip _ _]/= ![nth _ _ 3%N]/=.
pose S q := sp_quarter (sh_sum h) (sh_max h) maxdist q.
have [|b [x [-> [eb ex hx]]]] := @cut_loop4 N m S; first by [].
move: (100%:R : rat) eb => c100 eb.
have eN : (~~ b) <-> forall q, (q < 4)%N -> c100 <= N q.
  rewrite eb negbK; split=> [/allP a q hq|a]; first by apply: a; rewrite mem_iota.
  by apply/allP => q; rewrite mem_iota => hq; exact: a.
case: (boolP (b || (x < 0))) => [hb|]; last rewrite negb_or -leNgt.
  exists false, maxdist; split=> //; split=> //; split=> // -[/eN nb [q hq q0]].
  move: hb; rewrite (negbTE nb) /= ex // => /hasPn /(_ q); rewrite mem_iota /= hq => /(_ isT).
  by rewrite q0.
case/andP=> nb x0; have [[t tl et] top] := hx nb x0.
have sh (r : rat) (y : rat) : m 3%N / x = y -> x != 0 -> m 3%N = y * x by move=> <- xn; rewrite divfK.
have hm t' : (t' < 4)%N -> (forall q, (q < 4)%N -> m q <= m t') -> m t' = x.
  by move=> h1 h2; apply/eqP; rewrite eq_le top //= et h2.
have e3 : S 3%N / N 3%N = m 3%N by [].
rewrite -/(S 3%N) -/(N 3%N) e3.
exists true; case: (eqVneq x 0) => [e0|xn].
  exists (if m 3%N < 0 then maxdist / mag else maxdist); split; first exact: erefl.
  split; [|by []|].
    by split=> // _; split; [apply/eN|exists t; rewrite // -et].
  move=> _ t' h1 h2; rewrite (hm _ h1 h2) e0 mulr0; split.
  - by rewrite ltNge -e0 top.
  - by move=> ->.
  - by move=> ->; rewrite ltxx.
have xp : 0 < x by rewrite lt_def xn.
exists (if ratio < m 3%N / x then maxdist * mag else if m 3%N / x < ratio then maxdist / mag else maxdist).
split; first exact: erefl.
split; [|by []|].
  by split=> // _; split; [apply/eN|exists t; rewrite // -et].
move=> _ t' h1 h2; rewrite (hm _ h1 h2); move: (m 3%N) => m3; rewrite ltr_pdivl_mulr // ltr_pdivr_mulr //; split.
- by move=> ->.
- by move=> l; rewrite l ltNge (ltW l).
- by move=> ->; rewrite ltxx.
Qed.
Print Assumptions C81_cutoff.

(* a histogram with n bins on [0, max_val) *)
Definition sp_shist (n : nat) (max_val : rat) (h : shist) : bool :=
  [&& sh_max h == max_val, size (sh_counter h) == n & size (sh_sum h) == n].

Lemma cutoff_bounds h ratio maxdist mag : 0 < sh_max h -> 0 < maxdist -> 1 <= mag ->
  is_int32 (floorq (4%:R * sh_max h / maxdist)) ->
  exists b e, update_cutoff h ratio maxdist mag = Ok (b, e) /\ maxdist / mag <= e <= maxdist * mag.
Proof.
move=> M0 d0 mag1 i32; rewrite /update_cutoff !quarterP // /obind.
have mag0 : 0 < mag by apply: lt_le_trans mag1.
have h1 : maxdist <= maxdist * mag by rewrite ler_pmulr.
have h2 : maxdist / mag <= maxdist by rewrite ler_pdivr_mulr.
case: (cut_loop _ _) => f x; case: ifP => _.
  by exists false, maxdist; split=> //; apply/andP.
case: ifP => _; eexists true; eexists; (split; first exact: erefl).
  by case: (_ < 0); apply/andP; split=> //; exact: le_trans h1.
by case: (ratio < _); [|case: (_ < ratio)]; apply/andP; split=> //; exact: le_trans h2 h1.
Qed.

Lemma fold_max (T : Type) (f : T -> outcome (bool * rat)) (d : T) hs (m0 : rat) :
  (forall j, (j < size hs)%N -> exists b e, f (nth d hs j) = Ok (b, e)) ->
  exists2 m, foldl (fun o h => obind o (fun m => obind (f h) (fun r => Ok (dmax m r.2)))) (Ok m0) hs = Ok m &
    [/\ m0 <= m, forall j b e, (j < size hs)%N -> f (nth d hs j) = Ok (b, e) -> e <= m &
      m = m0 \/ exists2 i, (i < size hs)%N & exists b, f (nth d hs i) = Ok (b, m)].
Proof.
elim: hs m0 => [|h hs ih] m0 hf /=; first by exists m0 => //; split=> //; left.
have [b [e e1]] := hf 0%N isT; rewrite /= in e1; rewrite e1 /= dmaxE.
have [|m -> [l1 l2 l3]] := ih (Num.max m0 e); first by move=> j hj; exact: (hf j.+1).
exists m => //; move: l1; rewrite le_maxl => /andP[l0 le]; split=> //.
  by case=> [|j] b' e' //=; [rewrite e1 => _ [_ <-]|exact: l2].
case: l3 => [->|[i hi [b' hb']]]; last by right; exists i.+1 => //; exists b'.
rewrite maxElt; case: ifP => _; last by left.
by right; exists 0%N => //; exists b.
Qed.

(* The histograms of all flavors: the new cutoff is the largest of the cutoffs of the flavors,
   limited to the range from one bin to all bins. *)
Theorem C81_flavors :
  forall (n : nat) (max_val : rat) (hs : seq shist) (ratio maxdist mag : rat),
    (0 < n)%N -> 0 < max_val -> 0 < maxdist -> 1 <= mag -> is_int32 (floorq (4%:R * max_val / maxdist)) ->
    all (sp_shist n max_val) hs ->
    exists2 d, fupdate_cutoff n max_val hs ratio maxdist mag = Ok d &
      max_val / n%:R <= d <= max_val /\
      (hs <> [::] -> exists2 i, (i < size hs)%N & exists b e,
         [/\ update_cutoff (nth shist_default hs i) ratio maxdist mag = Ok (b, e),
           e <= maxdist * mag /\ maxdist / mag <= e,
           forall j b' e', (j < size hs)%N -> update_cutoff (nth shist_default hs j) ratio maxdist mag = Ok (b', e') -> e' <= e &
           (max_val / n%:R <= e <= max_val -> d = e) /\ (max_val < e -> d = max_val) /\ (e < max_val / n%:R -> d = max_val / n%:R)]).
Proof.
move=> n M hs ratio maxdist mag n0 M0 d0 mag1 i32 ok.
have hb j : (j < size hs)%N -> exists b e, update_cutoff (nth shist_default hs j) ratio maxdist mag = Ok (b, e) /\ maxdist / mag <= e <= maxdist * mag.
  by move=> hj; have /and3P[/eqP em _ _] := all_nthP shist_default ok j hj; apply: cutoff_bounds; rewrite ?em.
have [|m em [l1 l2 l3]] := @fold_max _ (fun h => update_cutoff h ratio maxdist mag) shist_default hs (-1).
  by move=> j hj; have [b [e [e1 _]]] := hb j hj; exists b, e.
have nr : 0 < n%:R :> rat by rewrite ltr0n.
have n1 : M / n%:R <= M by rewrite ler_pdivr_mulr // ler_pmulr // ler1n.
have mag0 : 0 < mag by apply: lt_le_trans mag1.
rewrite /fupdate_cutoff em /=; eexists; first exact: erefl; split.
  rewrite dmaxE le_maxr lexx orbT le_maxl n1 andbT /= /dmin.
  by case: ifP => [/ltW|_].
move=> hs0; case: l3 => [e1|[i hi [b hib]]].
  have s0 : (0 < size hs)%N by case: (hs) hs0.
  have [b [e [e2 /andP[ge _]]]] := hb 0%N s0; have := l2 _ _ _ s0 e2.
  rewrite e1 => l; have : 0 < -1 :> rat by apply: lt_le_trans l; apply: lt_le_trans ge; rewrite divr_gt0.
  by rewrite oppr_gt0 ltr10.
exists i => //; exists b, m; have [b' [e' [e2 /andP[g1 g2]]]] := hb i hi.
move: e2; rewrite hib => -[_ e2]; rewrite -{e'}e2 in g1 g2.
rewrite dmaxE /dmin; split=> //; split=> [/andP[k1 k2]|].
  case: ltP => c; first by rewrite max_l.
  by rewrite (@le_anti _ _ m M) ?k2 ?c // max_l.
split=> [k|k]; first by rewrite ltNge (ltW k) /= max_l.
by rewrite (lt_le_trans k n1) max_r // ltW.
Qed.
Print Assumptions C81_flavors.

Lemma int32_26 : is_int32 26%:Z.
Proof.
have : 32%:Z < two31.
  rewrite /two31 -[31%N]/(6 + 25)%N exprD; apply: (@lt_le_trans _ _ 64%:Z) => //.
by rewrite /is_int32; move: two31 => t; clear; lia.
Qed.

(* A cutoff of at most two bins stays for ever: the first quarter holds no bin centre, hence no
   samples, whatever was recorded. *)
Theorem C81_stuck_refuted :
  exists (n : nat) (max_val maxdist : rat), [/\ (0 < n)%N, 0 < max_val, max_val / n%:R < maxdist < max_val &
    forall hs ratio mag, all (sp_shist n max_val) hs -> hs <> [::] ->
      fupdate_cutoff n max_val hs ratio maxdist mag = Ok maxdist].
Proof.
exists 10%N, 10%:R, (3%:R / 2%:R); split=> // hs ratio mag ok hs0.
have one h : sp_shist 10 10%:R h -> update_cutoff h ratio (3%:R / 2%:R) mag = Ok (false, 3%:R / 2%:R).
  case/and3P => /eqP eM /eqP sc /eqP ss.
  have M0 : 0 < sh_max h by rewrite eM.
  have [||b [d [-> [hb hd _]]]] := @C81_cutoff h ratio (3%:R / 2%:R) mag M0; [by []|rewrite eM|].
    have -> : floorq (4%:R * 10%:R / (3%:R / 2%:R)) = 26%:Z by apply/floorqP; vm_compute.
    exact: int32_26.
  have nb : ~~ b.
    apply/negP => /hb [/(_ 0%N isT) + _]; rewrite /sp_num /sp_quarter sc eM big_pred0; first by rewrite lern0.
    move=> i; rewrite /in_sbin divff // mulr1; apply/negbTE; rewrite negb_and -leNgt; apply/orP; right.
    by apply: (@le_trans _ _ (1 / 2%:R)); [vm_compute|rewrite ler_addr ler0n].
  by rewrite (hd nb) (negbTE nb).
have [|m em [_ l2 l3]] := @fold_max _ (fun h => update_cutoff h ratio (3%:R / 2%:R) mag) shist_default hs (-1).
  by move=> j hj; exists false, (3%:R / 2%:R); apply: one; exact: (all_nthP shist_default ok).
have e1 : m = 3%:R / 2%:R.
  case: l3 => [e|[i hi [b]]]; last by rewrite one; [case|exact: (all_nthP shist_default ok)].
  have s0 : (0 < size hs)%N by case: (hs) hs0.
  have := l2 0%N false (3%:R / 2%:R) s0 (one _ (all_nthP shist_default ok 0%N s0)).
  by rewrite e.
by rewrite /fupdate_cutoff em /= e1; congr Ok; vm_compute.
Qed.
Print Assumptions C81_stuck_refuted.

(* four bins on [0, 1), 100 to 200 samples, mean values 3, 2, 1, 1/2: the last one is more than
   a tenth of the first, so the cutoff doubles *)
Definition h81 : shist := SHist 4 500 1 [:: 300%:R; 200%:R; 200%:R; 50%:R] [::] [:: 100%:R; 100%:R; 200%:R; 100%:R].
Lemma quarter4 (v : seq rat) k : size v = 4%N -> (k < 4)%N -> sp_quarter v 1 1 k = nth 0 v k.
Proof.
move=> sz hk; rewrite /sp_quarter sz (big_pred1 (Ordinal hk)) // => i.
have -> : pred1 (Ordinal hk) i = (nat_of_ord i == k) by [].
case: i => i hi; rewrite [nat_of_ord _]/=.
by move: i k hi hk => [|[|[|[|i]]]] [|[|[|[|k]]]] // _ _; vm_compute.
Qed.
Example C81_case : update_cutoff h81 (1 / 10%:R) 1 2%:R = Ok (true, 2%:R).
Proof.
have i32 : is_int32 (floorq (4%:R * 1 / 1)).
  have -> : floorq (4%:R * 1 / 1) = 4%:Z by apply/floorqP; vm_compute.
  have : 32%:Z < two31 by rewrite /two31 -[31%N]/(6 + 25)%N exprD; apply: (@lt_le_trans _ _ 64%:Z).
  by rewrite /is_int32; move: two31 => t; clear; lia.
rewrite /update_cutoff [sh_max h81]/= !quarterP // ![map _ _]/= !quarter4 //.
Qed.

(* ------------------------------------------------------------------ C82 *)

(* how often an update with n vertices was reported as valid *)
Definition sp_reported (os : seq prop_op) (n : nat) : nat :=
  count (fun o => if o is GenValid k then k == n else false) os.
Definition sp_in_range (Nv : nat) (o : prop_op) : bool :=
  match o with GenValid k | GenInvalid k => (0 < k <= Nv)%N end.

Lemma bump_ok v n : (0 < n <= size v)%N -> exists2 v', bump_at v n = Ok v' &
  size v' = size v /\ forall i, nth 0 v' i = nth 0 v i + (n == i.+1)%:R.
Proof.
case: n => // k hk; rewrite /bump_at (@get_ok _ 0) //=.
have [v' -> [s1 h1]] := @put_ok _ 0 v k (nth 0 v k + 1) hk.
by exists v' => //; split=> // i; rewrite h1 eqSS eq_sym; case: eqP => [->|_]; rewrite ?addr0.
Qed.

Lemma prop_runP os Nv va inv rates : size va = Nv -> size inv = Nv -> all (sp_in_range Nv) os ->
  exists va' inv', prop_run (Prop_ Nv 0 va inv rates) os = Ok (Prop_ Nv 0 va' inv' rates) /\
  [/\ size va' = Nv, size inv' = Nv & forall i, nth 0 va' i = nth 0 va i + (sp_reported os i.+1)%:R].
Proof.
elim: os va inv => [|o os ih] va inv s1 s2 /=; first by exists va, inv; split=> //; split=> // i; rewrite addr0.
case/andP; case: o => n hn hos; rewrite /prop_step /=.
  have [|v' -> [s3 h3]] := @bump_ok va n; first by rewrite s1.
  have [|||va' [inv' [e [t1 t2 t3]]]] := ih v' inv; rewrite ?s3 //.
  by exists va', inv'; split=> //; split=> // i; rewrite t3 h3 natrD addrA.
have [|v' -> [s3 h3]] := @bump_ok inv n; first by rewrite s2.
have [|||va' [inv' [e [t1 t2 t3]]]] := ih va v'; rewrite ?s3 //.
by exists va', inv'; split.
Qed.

Lemma foldl_sum (l : seq rat) a : foldl +%R a l = a + \sum_(x <- l) x.
Proof. by elim: l a => [|x l ih] a /=; rewrite ?big_nil ?addr0 // ih big_cons addrA. Qed.

(* After the learning phase the rates are positive and add up to one.  The number of valid
   updates per proposal seen in the learning phase is v/r; with the new rates the expected
   numbers of valid updates are to each other as the requested rates. *)
Theorem C82_learning :
  forall (Nv : nat) (r : seq rat) (os : seq prop_op),
    (0 < Nv)%N -> size r = Nv -> all (fun x => 0 < x) r -> all (sp_in_range Nv) os ->
    let v i : rat := (1 + sp_reported os i.+1)%N%:R in
    exists p p', prop_run (prop_new Nv r) os = Ok p /\ finish_learning p = Ok p' /\
      let new := pr_rates p' in
      [/\ size new = Nv, all (fun x => 0 < x) new, \sum_(x <- new) x = 1,
        forall i j, (i < Nv)%N -> (j < Nv)%N ->
          (nth 0 new i * (v i / nth 0 r i)) / nth 0 r i = (nth 0 new j * (v j / nth 0 r j)) / nth 0 r j &
        (forall os', prop_run p' os' = Ok p') /\ finish_learning p' = Throw].
Proof.
move=> Nv r os n0 sr rp ho v.
have [|||va [inv [e [s1 s2 hv]]]] := @prop_runP os Nv (nseq Nv 1) (nseq Nv 1) r; rewrite ?size_nseq //.
have rpos i : (i < Nv)%N -> 0 < nth 0 r i by move=> hi; apply: (all_nthP 0 rp); rewrite sr.
have {}hv i : (i < Nv)%N -> nth 0 va i = v i by move=> hi; rewrite hv nth_nseq hi /v natrD.
have vpos i : 0 < v i by rewrite ltr0n.
pose w i := if i == 0%N then nth 0 r 0 else nth 0 r i * (nth 0 r i / nth 0 r 0 / (v i / v 0%N)).
have wpos i : (i < Nv)%N -> 0 < w i.
  move=> hi; rewrite /w; case: eqP => _; first exact: rpos.
  apply: mulr_gt0; first exact: rpos.
  by apply: divr_gt0; apply: divr_gt0 => //; exact: rpos.
have [||r1 e1 [t1 h1]] := @oloopP _ (rate_step va) (fun i x => size x = Nv /\ forall j, (j < Nv)%N ->
    nth 0 x j = if (j < i)%N then w j else nth 0 r j) 1 (Nv - 1) r.
- by split=> // -[|j] //.
- move=> i x hi [sx hx]; have il : (i < Nv)%N by move: hi; clear; lia.
  rewrite /rate_step !(@get_ok _ 0) ?sx ?s1 //=.
  set y := nth 0 x i * _.
  have [|x' -> [sx' hx']] := @put_ok _ 0 x i y; first by rewrite sx.
  exists x' => //; split; first by rewrite sx'.
  move=> j hj; rewrite hx' ltnS leq_eqVlt; case: eqP => [->|_] /=; last exact: hx.
  by rewrite /y !hx // !hv // ltnn /w; case: (i) hi => // k hk; rewrite /= ltnS.
have {}h1 j : (j < Nv)%N -> nth 0 r1 j = w j by move=> hj; rewrite h1 // subnKC // hj.
pose S := \sum_(x <- r1) x.
have Spos : 0 < S.
  rewrite /S (big_nth 0) t1 big_mkord; apply: (@lt_le_trans _ _ (w 0%N)); first exact: wpos.
  rewrite (bigD1 (Ordinal n0)) //= h1 // ler_addl; apply: sumr_ge0 => i _; rewrite h1 //; apply: ltW; exact: wpos.
have [||r2 e2 [t2 h2]] := @oloopP _ (norm_step S) (fun i x => size x = Nv /\ forall j, (j < Nv)%N ->
    nth 0 x j = if (j < i)%N then w j / S else w j) 0 Nv r1.
- by split=> // j hj; rewrite h1.
- move=> i x; rewrite add0n => hi [sx hx]; rewrite /norm_step (@get_ok _ 0) ?sx //=.
  have [|x' -> [sx' hx']] := @put_ok _ 0 x i (nth 0 x i / S); first by rewrite sx.
  exists x' => //; split; first by rewrite sx'.
  move=> j hj; rewrite hx' ltnS leq_eqVlt; case: eqP => [->|_] /=; last exact: hx.
  by rewrite hx // ltnn.
have {}h2 j : (j < Nv)%N -> nth 0 r2 j = w j / S by move=> hj; rewrite h2 // add0n hj.
exists (Prop_ Nv 0 va inv r), (Prop_ Nv 1 va inv r2); split=> //; split.
  by rewrite /finish_learning /= e1 /= foldl_sum add0r -/S e2.
rewrite [pr_rates _]/=; split=> //.
- by apply/(all_nthP 0) => i; rewrite t2 => hi; rewrite h2 // divr_gt0 // wpos.
- rewrite (big_nth 0) t2 big_mkord (eq_bigr (fun i : 'I_Nv => w i / S)); last by move=> i _; rewrite h2.
  rewrite -mulr_suml -[RHS](@divff _ S) ?gt_eqF //; congr (_ / _).
  by rewrite /S (big_nth 0) t1 big_mkord; apply: eq_bigr => i _; rewrite h1.
- have H i : (i < Nv)%N -> w i / S * (v i / nth 0 r i) / nth 0 r i = v 0%N / nth 0 r 0 / S.
    move=> hi; have a := lt0r_neq0 (rpos _ hi); have b := lt0r_neq0 (rpos _ n0); have c := lt0r_neq0 Spos.
    have d := lt0r_neq0 (vpos i); have f := lt0r_neq0 (vpos 0%N).
    rewrite /w; case: eqP => [e0|_].
      by move: a d; rewrite e0 => a d; field; rewrite ?a ?b ?c.
    by field; rewrite ?a ?b ?c ?d ?f.
  by move=> i j hi hj; rewrite !h2 // !H.
- by split=> //; elim=> [|o os' ih].
Qed.
Print Assumptions C82_learning.

(* two rates 3/4 and 1/4: three valid single updates and no valid double update make
   the rates 9/13 and 4/13 *)
Example C82_case :
  obind (prop_run (prop_new 2 [:: 3%:R / 4%:R; 1 / 4%:R]) [:: GenValid 1; GenValid 1; GenInvalid 2; GenValid 1]) (fun p =>
  obind (finish_learning p) (fun p' => Ok (pr_rates p' == [:: 9%:R / 13%:R; 4%:R / 13%:R]))) = Ok true.
Proof. by vm_compute. Qed.
