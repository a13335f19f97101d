(* Proofs for the histograms and counters. *)
From mathcomp Require Import all_ssreflect order ssralg ssrnum ssrint rat intdiv.
From mathcomp Require Import zify.
From mathcomp.algebra_tactics Require Import ring.
From Verif Require Import Outcome GreenModel GreenProofs LegendreModel LegendreProofs HistModel.

Set Implicit Arguments.
Unset Strict Implicit.
Unset Printing Implicit Defensive.

Local Open Scope ring_scope.
Import Order.TTheory GRing.Theory Num.Theory.

(* ------------------------------------------------------------ class histogram *)

Lemma size_count h k : size (hist_count h k) = size h.
Proof. by rewrite /hist_count; case: ltnP => // lt; rewrite size_set_nth; apply/maxn_idPr. Qed.

Lemma nth_count h k i : nth 0%N (hist_count h k) i = (nth 0%N h i + ((i == k) && (i < size h)))%N.
Proof.
rewrite /hist_count; case: ltnP => lt.
  by rewrite nth_set_nth /=; case: eqP => [->|_]; rewrite ?lt ?addn1 ?addn0.
by case: eqP => [->|_]; rewrite ?addn0 // ltnNge lt addn0.
Qed.

Lemma clearP h : hist_clear h = nseq (size h) 0%N.
Proof.
have H l g : all (fun i => i < size g)%N l ->
    size (foldl (fun h i => set_nth 0%N h i 0%N) g l) = size g /\
    forall j, nth 0%N (foldl (fun h i => set_nth 0%N h i 0%N) g l) j = if j \in l then 0%N else nth 0%N g j.
  elim: l g => [|x l ih] g //= /andP[hx hl].
  have sz : size (set_nth 0%N g x 0%N) = size g by rewrite size_set_nth; apply/maxn_idPr.
  have [|e1 e2] := ih (set_nth 0%N g x 0%N); first by rewrite sz.
  by split=> [|j]; rewrite ?e1 // e2 in_cons nth_set_nth /=; case: (j \in l); case: eqP.
have [|e1 e2] := H (iota 0 (size h)) h; first by apply/allP => i; rewrite mem_iota.
apply: (@eq_from_nth _ 0%N); rewrite /hist_clear e1 ?size_nseq // => i hi.
by rewrite e2 mem_iota /= add0n hi nth_nseq if_same.
Qed.

Lemma maxP h : let m := max_index h in
  [/\ forall i, (nth 0%N h i <= nth 0%N h m)%N, forall i, (i < m)%N -> (nth 0%N h i < nth 0%N h m)%N &
      h != [::] -> (m < size h)%N].
Proof.
rewrite /max_index; set f := fun s i => _.
have H k : (k <= size h)%N -> let s := foldl f (0%N, 0%N) (iota 0 k) in
  [/\ forall i, (i < k)%N -> (nth 0%N h i <= s.1)%N, forall i, (i < s.2)%N -> (nth 0%N h i < s.1)%N,
      (s.1 = nth 0%N h s.2 \/ (s = (0, 0)%N)) & (s.2 < size h)%N \/ s.2 = 0%N].
  elim: k => [|k ih] hk; first by split=> //; right.
  have [h1 h2 h3 h4] := ih (ltnW hk); rewrite -addn1 iotaD foldl_cat /= add0n.
  move: (foldl _ _ _) h1 h2 h3 h4 => s h1 h2 h3 h4; rewrite {1 2 3 4 5 6 7 8}/f; case: ltnP => c /=.
    split=> //; last 2 first.
    - by left.
    - by left.
    - by move=> i; rewrite addn1 ltnS leq_eqVlt => /orP[/eqP->//|/h1 l]; exact: leq_trans l (ltnW c).
    by move=> i /h1 l; exact: leq_ltn_trans l c.
  split=> // i; rewrite addn1 ltnS leq_eqVlt => /orP[/eqP->//|/h1 //].
have [h1 h2 h3 h4] := H _ (leqnn _); move: (foldl _ _ _) h1 h2 h3 h4 => [a b] /= h1 h2 h3 h4.
have e : a = nth 0%N h b.
  case: h3 => // -[-> ->] in h1 *.
  have [->//|] := eqVneq h [::]; rewrite -size_eq0 -lt0n => /h1; by case: (nth _ _ _).
split=> [i|i /h2|].
- by rewrite -e; case: (ltnP i (size h)) => [/h1 //|/(nth_default 0%N) ->].
- by rewrite e.
- by case: h4 => // ->; rewrite lt0n size_eq0.
Qed.

Lemma topP h : let t := top_index h in
  (forall i, (t < i)%N -> nth 0%N h i = 0)%N /\ (nth 0%N h t != 0%N \/ t = 0%N).
Proof.
rewrite /top_index; set f := fun t i => _.
have H k : let t := foldl f 0%N (iota 0 k) in
  (forall i, (t < i < k)%N -> nth 0%N h i = 0)%N /\ (nth 0%N h t != 0%N \/ t = 0%N).
  elim: k => [|k [h1 h2]]; first by split=> [i|]; [rewrite ltn0 andbF|right].
  rewrite -addn1 iotaD foldl_cat /= add0n; move: (foldl _ _ _) h1 h2 => t h1 h2.
  rewrite /f; case: eqP => e /=.
    split=> // i /andP[l1]; rewrite addn1 ltnS leq_eqVlt => /orP[/eqP->//|l2]; apply: h1; by rewrite l1.
  by split=> [i|]; [rewrite addn1 ltnS => /andP[a b]; move: a; rewrite ltnNge b|left; apply/eqP].
have [h1 h2] := H (size h); split=> // i li.
by case: (ltnP i (size h)) => [l|/(nth_default 0%N) //]; apply: h1; rewrite li.
Qed.

Lemma hist_maxP h n : (n <= size h)%N -> hist_max h n = Ok (\max_(i < n) nth 0%N h i)%N.
Proof.
move=> hn; rewrite /hist_max.
have [||m -> ->] := @oloopP _ (fun i m => obind (get h i) (fun v => Ok (if (m < v)%N then v else m)))
  (fun i m => m = \max_(j < i) nth 0%N h j)%N 0 n 0%N; rewrite ?big_ord0 ?add0n //.
move=> i m /andP[_ hi] ->; rewrite (get_ok 0%N) /=; last exact: leq_trans hi hn.
by eexists; first reflexivity; rewrite big_ord_recr.
Qed.

Lemma hist_averageP h n : (n <= size h)%N ->
  hist_average h n = Ok (if n == 0%N then None else Some ((\sum_(i < n) (nth 0%N h i)%:R) / n%:R)).
Proof.
move=> hn; rewrite /hist_average.
have [||m -> ->] := @oloopP _ (fun i (a : rat) => obind (get h i) (fun v => Ok (a + v%:R)))
  (fun i m => m = \sum_(j < i) (nth 0%N h j)%:R) 0 n 0; rewrite ?big_ord0 ?add0n //.
move=> i m /andP[_ hi] ->; rewrite (get_ok 0%N) /=; last exact: leq_trans hi hn.
by eexists; first reflexivity; rewrite big_ord_recr.
Qed.

(* ------------------------------------------------------------ rebin *)

Lemma rebinP org n : (0 < n)%N -> exists2 new, rebin org n = Ok new &
  size new = (size org %/ n)%N /\
  forall i, (i < size org %/ n)%N -> nth 0 new i = \sum_(j < n) nth 0 org (i * n + j).
Proof.
move=> n0; rewrite /rebin -[n == 0%N]negbK -lt0n n0 /=; set m := (size org %/ n)%N.
pose body i (x : nat * seq rat) :=
      obind (oloop (fun _ (y : nat * rat) => obind (get org y.1) (fun v => Ok (y.1.+1, y.2 + v))) 0 n (x.1, 0)) (fun y =>
      obind (put x.2 i y.2) (fun new => Ok (y.1, new))).
rewrite -/body.
have [||x -> [h1 h2 h3]] := @oloopP _ body (fun i x => [/\ x.1 = (i * n)%N, size x.2 = m &
   forall k, (k < i)%N -> nth 0 x.2 k = \sum_(j < n) nth 0 org (k * n + j)]) 0 m (0%N, nseq m 0).
- by split; rewrite ?size_nseq.
- move=> i [c new]; rewrite add0n => /andP[_ hi] /= [-> s1 hk]; rewrite /body /=.
  have lim j : (j < n)%N -> (i * n + j < size org)%N.
    move=> hj; apply: leq_trans (_ : i.+1 * n <= _)%N; first by rewrite mulSn addnC ltn_add2r.
    by apply: leq_trans (leq_trunc_div (size org) n); rewrite leq_mul2r hi orbT.
  have [||y -> [e1 e2]] := @oloopP _ (fun _ (y : nat * rat) => obind (get org y.1) (fun v => Ok (y.1.+1, y.2 + v)))
    (fun k y => y.1 = (i * n + k)%N /\ y.2 = \sum_(j < k) nth 0 org (i * n + j)) 0 n ((i * n)%N, 0).
  + by rewrite /= addn0 big_ord0.
  + move=> k [a b]; rewrite add0n => /andP[_ hkn] /= [-> ->]; rewrite (get_ok 0) ?lim //=.
    by eexists; first reflexivity; rewrite /= addnS big_ord_recr.
  rewrite /= e1 e2 add0n.
  have [|new' -> [p1 p2]] := @put_ok _ 0 new i (\sum_(j < n) nth 0 org (i * n + j)); first by rewrite s1.
  eexists; first reflexivity; split=> /=; [by rewrite mulSn addnC|by rewrite p1|].
  by move=> k; rewrite ltnS leq_eqVlt p2; case: eqP => [->//|_ /=]; exact: hk.
by exists x.2 => //; split=> // i hi; apply: h3; rewrite add0n.
Qed.

(* ------------------------------------------------------------ positions *)

Lemma floorqP (x : rat) (k : int) : floorq x = k <-> k%:~R <= x < (k + 1)%:~R.
Proof.
have /andP[h1 h2] := floor_ok x; rewrite -/(floorq x) in h1 h2; split=> [<-|/andP[h3 h4]]; first by rewrite h1.
have a : (k%:~R : rat) < (floorq x + 1)%:~R by apply: le_lt_trans h2.
have b : ((floorq x)%:~R : rat) < (k + 1)%:~R by apply: le_lt_trans h4.
by move: a b; rewrite !ltr_int; move: (floorq x) => m; clear; lia.
Qed.

Lemma floorq_le (x y : rat) : x <= y -> (floorq x <= floorq y)%R.
Proof.
move=> xy; have /andP[h1 h2] := floor_ok x; have /andP[h3 h4] := floor_ok y.
have : ((floorq x)%:~R : rat) < (floorq y + 1)%:~R by apply: le_lt_trans h4; exact: le_trans xy.
by rewrite ltr_int; move: (floorq x) (floorq y) => a b; clear; lia.
Qed.

Lemma int32_between (a b c : int) : is_int32 a -> is_int32 c -> a <= b <= c -> is_int32 b.
Proof.
rewrite /is_int32; move: two31 => m /andP[h1 h2] /andP[h3 h4] /andP[h5 h6].
by rewrite (le_trans h1 h5) (le_lt_trans h6 h4).
Qed.

Lemma int32_0 : is_int32 0.
Proof. by rewrite /is_int32; move: two31_gt1; move: two31 => m; clear; lia. Qed.

Lemma rebin2P org maxval maxval_new (n : nat) : 0 < maxval -> 0 < maxval_new ->
  is_int32 (floorq (n%:R * maxval / maxval_new)) ->
  exists2 new, rebin2 org maxval maxval_new n = Ok new &
  size new = n /\ forall b, (b < n)%N -> nth 0 new b =
    \sum_(i < size org | b%:R <= n%:R * ((i%:R + 1 / 2%:R) * (maxval / (size org)%:R)) / maxval_new < b.+1%:R) nth 0 org i.
Proof.
move=> m0 w0 i32; rewrite /rebin2.
pose cent (i : nat) := n%:R * ((i%:R + 1 / 2%:R) * (maxval / (size org)%:R)) / maxval_new.
have c0 i : 0 <= cent i.
  by rewrite /cent !(divr_ge0, mulr_ge0, addr_ge0, ler0n, ltW m0, ltW w0).
have cmono i j : (i <= j)%N -> cent i <= cent j.
  move=> ij; rewrite /cent ler_pmul2r ?invr_gt0 //; apply: ler_wpmul2l; rewrite ?ler0n //.
  by apply: ler_wpmul2r; [apply: divr_ge0; [exact: ltW|exact: ler0n]|rewrite ler_add2r ler_nat].
have cint i : (i < size org)%N -> is_int32 (floorq (cent i)).
  move=> hi; apply: int32_between int32_0 i32 _; apply/andP; split.
    have -> : 0 = floorq 0 by apply/esym/floorqP. 
    exact: floorq_le.
  apply: floorq_le; rewrite /cent ler_pmul2r ?invr_gt0 //; apply: ler_wpmul2l; rewrite ?ler0n //.
  have s0 : 0 < (size org)%:R :> rat by rewrite ltr0n; exact: leq_ltn_trans hi.
  rewrite mulrCA ger_pmulr // ler_pdivr_mulr //.
  have h1 : i%:R + 1 / 2%:R <= i.+1%:R :> rat by rewrite -[i.+1]addn1 natrD ler_add2l.
  by apply: le_trans h1 _; rewrite mul1r ler_nat.
have inb (b : nat) i : (floorq (cent i) == b%:Z) = (b%:R <= cent i < b.+1%:R).
  by apply/eqP/idP => [/floorqP|h]; [|apply/floorqP]; rewrite -[b%:Z + 1]/((b + 1)%N%:Z) addn1.
have H l i new : (i + size l = size org)%N -> (forall j, nth 0 l j = nth 0 org (i + j)) -> size new = n ->
  exists2 r, rebin2_loop l maxval maxval_new n (size org) i new = Ok r & size r = n /\
  forall b, (b < n)%N -> nth 0 r b = nth 0 new b + \sum_(i <= k < size org | b%:R <= cent k < b.+1%:R) nth 0 org k.
  elim: l i new => [|v l ih] i new /=.
    move=> e _ sn; exists new => //; split=> // b hb; rewrite big_geq ?addr0 //; by rewrite -e addn0.
  move=> e hl sn; have li : (i < size org)%N by rewrite -e addnS ltnS leq_addr.
  rewrite -/(cent i) cint //.
  have [new' -> [s' e']] : exists2 new', (if (0 <= floorq (cent i)) && (floorq (cent i) < n%:Z) then
       obind (get new `|floorq (cent i)|%N) (fun w => put new `|floorq (cent i)|%N (w + v)) else Ok new) = Ok new' &
     size new' = n /\ forall b, (b < n)%N -> nth 0 new' b = nth 0 new b + (if b%:R <= cent i < b.+1%:R then nth 0 org i else 0).
    case: ifP => [/andP[p0 p1]|np].
      case ef: (floorq (cent i)) p0 p1 => [p|//] _; rewrite ltz_nat => lp /=.
      rewrite (get_ok 0) ?sn //=; have [|new' -> [q1 q2]] := @put_ok _ 0 new p (nth 0 new p + v); first by rewrite sn.
      exists new' => //; split=> [|b hb]; rewrite ?q1 // q2 -inb ef.
      have -> : (Posz p == b%:Z) = (b == p) by apply/eqP/eqP; [case|move=> ->].
      case: eqP => [->|_]; rewrite ?addr0 //; by have := hl 0%N; rewrite /= addn0 => ->.
    exists new => //; split=> // b hb; rewrite -inb; case: eqP => [e'|_]; rewrite ?addr0 //.
    by move: np; rewrite e' ltz_nat hb.
  rewrite /=; case: ltP => brk.
    exists new' => //; split=> // b hb; rewrite e' // big_ltn_cond // big_nat_cond big1 ?addr0; first by case: ifP.
    move=> k /andP[/andP[k1 k2] hk]; exfalso.
    have fk : floorq (cent k) = b%:Z by apply/eqP; rewrite inb.
    have := floorq_le (cmono i k (ltnW k1)); rewrite fk => le.
    by move: (lt_le_trans brk le); rewrite ltz_nat ltnNge ltnW.
  have [|||r -> [r1 r2]] := ih i.+1 new'.
  - by rewrite addSnnS.
  - by move=> j; have := hl j.+1; rewrite /= addSnnS.
  - by [].
  exists r => //; split=> // b hb; rewrite r2 // e' // [in RHS]big_ltn_cond // -addrA; congr (_ + _).
  by case: ifP => _; rewrite ?add0r.
have [|||r -> [r1 r2]] := H org 0%N (nseq n 0); rewrite ?size_nseq //.
exists r => //; split=> // b hb; rewrite r2 // nth_nseq hb add0r big_mkord; exact: eq_bigl.
Qed.

(* ------------------------------------------------------------ scalar_histogram *)

Definition wf (n : nat) (M : rat) (h : shist) : Prop :=
  [/\ sh_bins h = n, sh_max h = M, size (sh_sum h) = n, size (sh_sum2 h) = n & size (sh_counter h) = n].

(* the bin b of n bins over [0, M) *)
Definition in_sbin (n : nat) (M : rat) (b : nat) (d : rat) : bool := b%:R * (M / n%:R) <= d < b.+1%:R * (M / n%:R).

Lemma sbinP n (M : rat) b (d : rat) : 0 < M -> (0 < n)%N -> (floorq (n%:R * d / M) == b%:Z) = in_sbin n M b d.
Proof.
move=> M0 n0; have nr : 0 < n%:R :> rat by rewrite ltr0n.
rewrite /in_sbin !mulrA ler_pdivr_mulr // ltr_pdivl_mulr // [d * _]mulrC.
rewrite -ler_pdivl_mulr // -[in RHS]ltr_pdivr_mulr //.
by apply/eqP/idP => [/floorqP|h]; [|apply/floorqP]; rewrite -[b%:Z + 1]/((b + 1)%N%:Z) addn1.
Qed.

Lemma sbin_range n (M d : rat) : 0 < M -> (0 < n)%N ->
  ((0 <= floorq (n%:R * d / M)) && (floorq (n%:R * d / M) < n%:Z)) = (0 <= d < M).
Proof.
move=> M0 n0; have nr : 0 < n%:R :> rat by rewrite ltr0n.
have /andP[h1 h2] := floor_ok (n%:R * d / M); rewrite -/(floorq _) in h1 h2.
set f := floorq _ in h1 h2 *.
have e : n%:R * d / M = d * (n%:R / M) by rewrite [n%:R * d]mulrC mulrA.
have q0 : 0 < n%:R / M by rewrite divr_gt0.
apply/andP/andP => -[a b]; split.
- rewrite -(pmulr_lge0 _ q0) -e; apply: le_trans h1; by rewrite ler0z.
- have : n%:R * d / M < n%:R by apply: lt_le_trans h2 _; rewrite -[n%:R]/(n%:Z%:~R) ler_int; move: b; clear; lia.
  by rewrite ltr_pdivr_mulr // mulrC [_ * M]mulrC ltr_pmul2r.
- have : (0 : rat) < (f + 1)%:~R by apply: le_lt_trans h2; rewrite e pmulr_lge0.
  by rewrite ltr0z; move: f {h1 h2}; clear; lia.
- have : (f%:~R : rat) < n%:Z%:~R.
    apply: le_lt_trans h1 _; rewrite ltr_pdivr_mulr // mulrC [_ * M]mulrC; by rewrite ltr_pmul2r.
  by rewrite ltr_int.
Qed.

Lemma vadd_ok (v : seq rat) p x : (p < size v)%N ->
  exists2 v', vadd v p x = Ok v' & size v' = size v /\ forall j, nth 0 v' j = nth 0 v j + (if j == p then x else 0).
Proof.
move=> hp; rewrite /vadd (get_ok 0 hp) /=; have [v' -> [h1 h2]] := put_ok 0 (nth 0 v p + x) hp.
by exists v' => //; split=> // j; rewrite h2; case: eqP => [->|_]; rewrite ?addr0.
Qed.

Lemma add_sampleP n (M : rat) h (d v : rat) : 0 < M -> (0 < n)%N -> wf n M h -> is_int32 (floorq (n%:R * d / M)) ->
  exists2 x, add_sample h d v = Ok x &
  [/\ wf n M x.1, sh_samples x.1 = (sh_samples h + (0 <= d < M)%R)%N, x.2 = (0 <= d < M) &
  forall b, (b < n)%N ->
    [/\ nth 0 (sh_sum x.1) b = nth 0 (sh_sum h) b + (if in_sbin n M b d then v else 0),
     nth 0 (sh_sum2 x.1) b = nth 0 (sh_sum2 h) b + (if in_sbin n M b d then v * v else 0) &
     nth 0 (sh_counter x.1) b = nth 0 (sh_counter h) b + (in_sbin n M b d)%:R]].
Proof.
move=> M0 n0 [w1 w2 w3 w4 w5] i32; rewrite /add_sample w1 w2 i32 sbin_range //.
case hd: (0 <= d < M).
  have := sbin_range d M0 n0; rewrite hd; case ef: (floorq _) => [p|//]; rewrite ltz_nat /= => lp.
  have [|s -> [s1 s2]] := @vadd_ok (sh_sum h) p v; first by rewrite w3.
  have [|t /= -> [t1 t2]] := @vadd_ok (sh_sum2 h) p (v * v); first by rewrite w4.
  have [|u /= -> [u1 u2]] := @vadd_ok (sh_counter h) p 1; first by rewrite w5.
  eexists; first reflexivity; split=> //=; first by rewrite /wf /= s1 t1 u1.
    by rewrite addn1.
  move=> b hb; have eb : in_sbin n M b d = (b == p).
    rewrite -sbinP // ef; by apply/eqP/eqP; [case|move=> ->].
  by rewrite s2 t2 u2 eb; case: (b == p).
eexists; first reflexivity; split=> //=; first by rewrite addn0.
move=> b hb; have -> : in_sbin n M b d = false.
  apply/negP; rewrite -sbinP // => /eqP e; move: (sbin_range d M0 n0); rewrite hd e ltz_nat hb //.
by rewrite !addr0.
Qed.

Lemma resetP n M h : wf n M h -> exists2 h', shist_reset h = Ok h' &
  [/\ wf n M h', sh_samples h' = 0%N & forall b, [/\ nth 0 (sh_sum h') b = 0, nth 0 (sh_sum2 h') b = 0 & nth 0 (sh_counter h') b = 0]].
Proof.
move=> [w1 w2 w3 w4 w5]; rewrite /shist_reset w1.
have [||x -> [h1 h2 h3 h4]] := @oloopP _ (fun i (x : seq rat * (seq rat * seq rat)) =>
      obind (put x.1 i 0) (fun a => obind (put x.2.1 i 0) (fun b => obind (put x.2.2 i 0) (fun c => Ok (a, (b, c))))))
  (fun i x => [/\ size x.1 = n, size x.2.1 = n, size x.2.2 = n & forall b, (b < i)%N ->
     [/\ nth 0 x.1 b = 0, nth 0 x.2.1 b = 0 & nth 0 x.2.2 b = 0]]) 0 n (sh_sum h, (sh_sum2 h, sh_counter h)).
- by split.
- move=> i [a [b c]]; rewrite add0n => /andP[_ hi] /= [a1 b1 c1 hb].
  have [|a' -> [a2 a3]] := @put_ok _ 0 a i 0; first by rewrite a1.
  have [|b' /= -> [b2 b3]] := @put_ok _ 0 b i 0; first by rewrite b1.
  have [|c' /= -> [c2 c3]] := @put_ok _ 0 c i 0; first by rewrite c1.
  eexists; first reflexivity; split; rewrite /= ?a2 ?b2 ?c2 // => k; rewrite ltnS leq_eqVlt a3 b3 c3.
  by case: eqP => [//|_ /=]; exact: hb.
eexists; first reflexivity; split=> // b /=.
case: (ltnP b n) => hb; first exact: h4.
by rewrite !nth_default ?h1 ?h2 ?h3.
Qed.

Lemma initP n M h : [/\ wf n M (shist_init n M h), sh_samples (shist_init n M h) = 0%N &
  forall b, [/\ nth 0 (sh_sum (shist_init n M h)) b = 0, nth 0 (sh_sum2 (shist_init n M h)) b = 0 & nth 0 (sh_counter (shist_init n M h)) b = 0]].
Proof.
have sz (v : seq rat) : size (take n v ++ nseq (n - size v) 0) = n.
  rewrite size_cat size_nseq size_take; case: (ltnP n (size v)) => c; last exact: subnKC.
  by rewrite (eqP (ltnW c : (n - size v == 0)%N)) addn0.
rewrite /shist_init !sz; split=> //; first by split; rewrite /= ?size_nseq.
by move=> b; rewrite /= nth_nseq if_same.
Qed.

Lemma meanP n M h : wf n M h -> exists2 m, get_mean h = Ok m & size m = n /\
  forall b, (b < n)%N -> nth None m b =
    if nth 0 (sh_counter h) b == 0 then None else Some (nth 0 (sh_sum h) b / nth 0 (sh_counter h) b).
Proof.
move=> [w1 w2 w3 w4 w5]; rewrite /get_mean w1.
have [||m -> [h1 h2]] := @oloopP _ (fun i (m : seq (option rat)) =>
      obind (get m i) (fun x => obind (get (sh_counter h) i) (fun c =>
      put m i (if c == 0 then None else omap (fun x => x / c) x))))
  (fun i m => size m = n /\ forall b, (b < n)%N -> nth None m b =
     if (b < i)%N then (if nth 0 (sh_counter h) b == 0 then None else Some (nth 0 (sh_sum h) b / nth 0 (sh_counter h) b))
     else Some (nth 0 (sh_sum h) b)) 0 n [seq Some x | x <- sh_sum h].
- by rewrite size_map w3; split=> // b hb; rewrite (nth_map 0) ?w3.
- move=> i m; rewrite add0n => /andP[_ hi] [s1 hm].
  rewrite (get_ok None) ?s1 //= (get_ok 0) ?w5 //=.
  have [|m' -> [p1 p2]] := @put_ok _ None m i (if nth 0 (sh_counter h) i == 0 then None else omap (fun x => x / nth 0 (sh_counter h) i) (nth None m i)); first by rewrite s1.
  exists m' => //; split=> [|b hb]; rewrite ?p1 // p2 ltnS leq_eqVlt.
  case: eqP => [->|_] /=; last exact: hm.
  by rewrite hm // ltnn.
by exists m => //; split=> // b hb; rewrite h2 // add0n hb.
Qed.

(* ------------------------------------------------------------ the flattened vectors *)

Lemma flattenP (T : Type) (d : T) (f : shist -> outcome (seq T)) (g : nat -> seq T) bins (hs : seq shist) :
  (forall k, (k < size hs)%N -> f (nth shist_default hs k) = Ok (g k) /\ size (g k) = bins) ->
  exists2 out, flatten_flavors d f bins hs = Ok out & size out = (bins * size hs)%N /\
  forall k b, (k < size hs)%N -> (b < bins)%N -> nth d out (b + k * bins) = nth d (g k) b.
Proof.
move=> hg; rewrite /flatten_flavors.
have lim k b : (k < size hs)%N -> (b < bins)%N -> (b + k * bins < bins * size hs)%N.
  move=> hk hb; apply: leq_trans (_ : bins * k.+1 <= _)%N; last by rewrite leq_mul2l hk orbT.
  by rewrite mulnS [(bins * k)%N]mulnC ltn_add2r.
have [||out -> [h1 h2]] := @oloopP _ (fun iflavor (out : seq T) =>
    obind (get hs iflavor) (fun h => obind (f h) (fun v =>
    oloop (fun ibin out => obind (get v ibin) (fun x => put out (ibin + iflavor * bins) x)) 0 bins out)))
  (fun i out => size out = (bins * size hs)%N /\ forall k b, (k < i)%N -> (b < bins)%N -> nth d out (b + k * bins) = nth d (g k) b)
  0 (size hs) (nseq (bins * size hs) d).
- by rewrite size_nseq.
- move=> i out; rewrite add0n => /andP[_ hi] [s1 ho].
  rewrite (get_ok shist_default) //=; have [-> sg] := hg i hi; rewrite /=.
  have [||out' -> [s2 h2]] := @oloopP _ (fun ibin out => obind (get (g i) ibin) (fun x => put out (ibin + i * bins) x))
    (fun j out => size out = (bins * size hs)%N /\ forall k b, (b < bins)%N -> (k < i)%N || (k == i) && (b < j)%N ->
       nth d out (b + k * bins) = nth d (g k) b) 0 bins out.
  + by split=> // k b hb; rewrite ltn0 andbF orbF => hk; exact: ho.
  + move=> j o; rewrite add0n => /andP[_ hj] [s3 h3]; rewrite (get_ok d) ?sg //=.
    have [|o' -> [p1 p2]] := @put_ok _ d o (j + i * bins)%N (nth d (g i) j); first by rewrite s3 lim.
    exists o' => //; split=> [|k b hb hk]; rewrite ?p1 // p2.
    case: eqP => [e|ne].
      have b0 : (0 < bins)%N by apply: leq_ltn_trans hb.
      have ek : k = i.
        move: (congr1 (divn^~ bins) e); rewrite ![(_ + _ * bins)%N]addnC !divnMDl // !divn_small // !addn0 //.
      by move: e; rewrite ek => /addIn ->.
    apply: h3 => //; case/orP: hk => [->//|/andP[/eqP ek hb']]; rewrite ek eqxx ltnn /=.
    move: hb'; rewrite ltnS leq_eqVlt => /orP[/eqP eb|//]; by case: ne; rewrite eb ek.
  exists out' => //; split=> // k b; rewrite ltnS leq_eqVlt add0n in h2 * => hk hb.
  by apply: h2 => //; rewrite hb andbT orbC.
by exists out => //; split=> // k b hk hb; apply: h2; rewrite ?add0n.
Qed.
