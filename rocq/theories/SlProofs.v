(* Proofs about the Legendre measurement and its evaluation (SlModel.v). *)
From mathcomp Require Import all_ssreflect order ssralg ssrnum ssrint rat poly.
From mathcomp Require Import zify.
From mathcomp.algebra_tactics Require Import ring.
From Verif Require Import Outcome GreenModel BinModel Prop_Bin LegendreModel LegendreSpec LegendreProofs SlModel.

Set Implicit Arguments.
Unset Strict Implicit.
Unset Printing Implicit Defensive.

Local Open Scope ring_scope.
Import Order.TTheory GRing.Theory Num.Theory.

Lemma obfoldP (S : Type) (f : S -> nat -> outcome S) (Inv : nat -> S -> Prop) n s : Inv 0%N s ->
  (forall k s, (k < n)%N -> Inv k s -> exists2 s', f s k = Ok s' & Inv k.+1 s') ->
  exists2 s', obfold f s (iota 0 n) = Ok s' & Inv n s'.
Proof.
move=> h0 hS; suff H a k s0 : (a + k = n)%N -> Inv a s0 -> exists2 s', obfold f s0 (iota a k) = Ok s' & Inv n s'.
  exact: (H 0%N n s).
elim: k a s0 => [|k ih] a s0 e h; first by exists s0 => //; rewrite -e addn0.
have [|s1 /= -> h1] := hS a s0 _ h; first by rewrite -e -addSnnS leq_addr.
by apply: ih => //; rewrite addSnnS.
Qed.

Lemma sum_pick (K : zmodType) n (f : nat -> K) d : \sum_(l <- iota 0 n) (if d == l then f l else 0) = if (d < n)%N then f d else 0.
Proof.
rewrite -(big_mkcond (fun l => d == l)); case: ltnP => h.
  rewrite (big_rem d) ?mem_iota //= eqxx big_seq_cond big1 ?addr0 // => l /andP[hl /eqP e].
  by move: hl; rewrite -e mem_rem_uniq ?iota_uniq // inE eqxx.
rewrite big_seq_cond big1 // => l /andP[]; rewrite mem_iota /= add0n => h1 /eqP e.
by move: h; rewrite e leqNgt h1.
Qed.

Section Sl.
Variable K : numFieldType.
Local Notation table := (nat -> nat -> nat -> nat -> K).
Local Notation fd0 := (FlavorData [::] [::] (fun _ _ => 0 : K)).

(* the loop over flavors *)
Lemma flavors_fold (P : flavor_data K -> Prop) (f : table -> nat * flavor_data K -> outcome table)
    (D : nat -> flavor_data K -> nat -> nat -> nat -> K) (flavors : seq (flavor_data K)) :
  (forall z d S, P d -> exists2 S', f S (z, d) = Ok S' &
     forall z' a b c, S' z' a b c = S z' a b c + (if z' == z then D z d a b c else 0)) ->
  (forall z, (z < size flavors)%N -> P (nth fd0 flavors z)) ->
  exists2 S, obfold f (fun _ _ _ _ => 0) (zip (iota 0 (size flavors)) flavors) = Ok S &
  forall z a b c, S z a b c = if (z < size flavors)%N then D z (nth fd0 flavors z) a b c else 0.
Proof.
move=> hf hP.
have H (l : seq (flavor_data K)) k S : (forall z, (z < size l)%N -> P (nth fd0 l z)) ->
  exists2 S', obfold f S (zip (iota k (size l)) l) = Ok S' &
  forall z a b c, S' z a b c = S z a b c +
    (if (k <= z < k + size l)%N then D z (nth fd0 l (z - k)) a b c else 0).
  elim: l k S => [|d l ih] k S hl /=.
    exists S => // z a b c; rewrite addn0 ltnNge andbN addr0 //.
  have [S1 -> h1] := hf k d S (hl 0%N isT).
  have [S2 /= -> h2] := ih k.+1 S1 (fun z => hl z.+1); exists S2 => // z a b c.
  rewrite h2 h1 -addrA addSnnS; congr (_ + _); case: (ltngtP k z) => [lt|gt|->].
  - by rewrite /= add0r; have -> : (z - k = (z - k.+1).+1)%N by lia.
  - by rewrite /= addr0.
  - have e1 : (z < z + (size l).+1)%N by lia.
    by rewrite e1 /= subnn addr0.
have [S e h] := H flavors 0%N (fun _ _ _ _ => 0) hP.
by exists S => // z a b c; rewrite h add0r add0n subn0.
Qed.

Variables (g0 : rat -> nat -> nat -> nat -> K) (sign : K) (beta : rat) (n_site : nat).
Variables (t : legendre K) (sqrt : K -> K) (n : nat).

(* the normalized polynomial *)
Definition phi (l : nat) (x : K) : K := sqrt (2 * l + 1)%N%:R * (legendreP K l).[x].

(* the creation operator q of one flavor, for one shift, weighted with w *)
Definition sl_term (z : nat) (d : flavor_data K) (walks : nat) (shift : rat) (q s1 s2 : nat) (w : K) : K :=
  let c := nth (0%N, 0) (fd_creat d) q in
  if (c.1 == s1) && (s2 < n_site)%N then
    (-1) ^+ odd_period beta (c.2 + shift) * (sign / walks%:R) * w *
    \sum_(0 <= p < size (fd_annih d)) fd_M d q p *
      g0 ((nth (0%N, 0) (fd_annih d) p).2 + shift) z (nth (0%N, 0) (fd_annih d) p).1 s2
  else 0.
(* the shifted time of the operator on the interval from -1 to 1 *)
Definition x_of (shift : rat) (d : flavor_data K) (q : nat) : K :=
  ratr (2%:R * wrapped beta ((nth (0%N, 0) (fd_creat d) q).2 + shift) / beta - 1).

Hypotheses (b0 : 0 < beta) (tn : lg_n t = n) (ti : size (lg_inv t) = n) (ts : size (lg_sqrt t) = n).
Hypothesis hinv : forall l, (0 < l < n)%N -> nth 0 (lg_inv t) l = 1 / l%:R.
Hypothesis hsq : forall l, (l < n)%N -> nth 0 (lg_sqrt t) l = sqrt (2 * l + 1)%N%:R.

Lemma x_valE (d : flavor_data K) s q : all (op_ok beta n_site) (fd_creat d) -> (q < size (fd_creat d))%N -> 0 <= s < beta ->
  x_val K beta (nth (0%N, 0) (fd_creat d) q).2 s = x_of s d q.
Proof.
move=> hc lq hs; have /andP[_ c2] := all_nthP (0%N, 0) hc q lq.
have [e _] := shifted_exact b0 c2 hs.
by rewrite /x_val /x_of e; congr ratr; rewrite mul1r.
Qed.

Lemma coeffE (d : flavor_data K) s q walks : all (op_ok beta n_site) (fd_creat d) -> (q < size (fd_creat d))%N -> 0 <= s < beta ->
  sl_coeff sign beta walks (nth (0%N, 0) (fd_creat d) q).2 s =
  (-1) ^+ odd_period beta ((nth (0%N, 0) (fd_creat d) q).2 + s) * (sign / walks%:R).
Proof.
move=> hc lq hs; have /andP[_ c2] := all_nthP (0%N, 0) hc q lq.
have [_ [e _]] := shifted_exact b0 c2 hs.
by rewrite /sl_coeff e; case: (odd_period _ _); rewrite ?expr1 ?expr0.
Qed.

Lemma get2_ok (vals : seq (seq K)) m l q : shape vals = nseq n m -> (l < n)%N -> (q < m)%N ->
  get2 vals l q = Ok (ent vals l q).
Proof.
move=> sh hl hq.
have sv : size vals = n by rewrite -(size_map size) -/(shape vals) sh size_nseq.
rewrite /get2 (get_ok [::]) ?sv //= (get_ok 0) //.
have := congr1 (fun r => nth 0%N r l) sh; rewrite /shape (nth_map [::]) ?sv // nth_nseq hl.
by move=> ->.
Qed.

Lemma legendre_values (xs : seq K) : exists2 vals, compute_legendre_vec t xs (nseq (lg_n t) (nseq (size xs) 0)) = Ok vals &
  shape vals = nseq n (size xs) /\ forall l ix, (l < n)%N -> (ix < size xs)%N -> ent vals l ix = (legendreP K l).[nth 0 xs ix].
Proof.
have [||vals e [h1 h2]] := @compute_legendre_vecP _ t n xs (nseq (lg_n t) (nseq (size xs) 0)) tn ti hinv.
- by rewrite size_nseq tn.
- by move=> l hl; rewrite nth_nseq tn hl size_nseq.
exists vals => //; split; first by rewrite h1 /shape tn map_nseq size_nseq.
by move=> l ix hl hi; rewrite h2 hl hi.
Qed.

Lemma sl_creator_ok z d walks s vals S q : all (op_ok beta n_site) (fd_creat d) -> (q < size (fd_creat d))%N -> 0 <= s < beta ->
  shape vals = nseq n (size (fd_creat d)) ->
  (forall l, (l < n)%N -> ent vals l q = (legendreP K l).[x_of s d q]) ->
  exists2 S', sl_creator g0 sign beta n_site t z d walks s vals S q = Ok S' &
  forall z' s1 s2 l, S' z' s1 s2 l = S z' s1 s2 l +
    (if z' == z then (if (l < n)%N then sl_term z d walks s q s1 s2 (phi l (x_of s d q)) else 0) else 0).
Proof.
move=> hc lq hs sh hv; have /andP[c1 _] := all_nthP (0%N, 0) hc q lq.
rewrite /sl_creator c1 coeffE //.
set c := nth (0%N, 0) (fd_creat d) q in c1 *.
set co := (-1) ^+ _ * _.
pose v l B := co * sqrt (2 * l + 1)%N%:R * (legendreP K l).[x_of s d q] * M_gR g0 z d s q B.
have [|S' -> h] := @obfold_sum K _ (fun S B => obfold (fun S l =>
        obind (get (lg_sqrt t) l) (fun sq => obind (get2 vals l q) (fun v =>
        Ok (tadd S z c.1 B l (co * sq * v * M_gR g0 z d s q B)))))
        S (iota 0 (lg_n t)))
   (fun B a b c' d' => if [&& a == z, b == c.1 & c' == B] then (if (d' < n)%N then v d' B else 0) else 0) (iota 0 n_site) S.
  move=> S1 B _.
  have [|S2 -> h] := @obfold_sum K _ (fun S l =>
        obind (get (lg_sqrt t) l) (fun sq => obind (get2 vals l q) (fun v =>
        Ok (tadd S z c.1 B l (co * sq * v * M_gR g0 z d s q B)))))
     (fun l a b c' d' => if [&& a == z, b == c.1 & c' == B] then (if d' == l then v l B else 0) else 0) (iota 0 (lg_n t)) S1.
    move=> S3 l; rewrite mem_iota /= add0n tn => hl.
    rewrite (get_ok 0) ?ts //= (get2_ok sh) //= hv // hsq //; eexists; first reflexivity.
    move=> a b c' d'; rewrite /tadd; case: (a == z); case: (b == c.1); case: (c' == B); rewrite /= ?addr0 //.
    by case: (d' == l); rewrite ?addr0.
  exists S2 => // a b c' d'; rewrite h; congr (_ + _).
  by case: ifP => _; rewrite ?sum_pick ?tn // big1.
exists S' => // z' s1 s2 l; rewrite h; congr (_ + _).
case: (z' == z) => /=; last by rewrite big1.
rewrite /sl_term -/c [c.1 == s1]eq_sym; case: (s1 == c.1) => /=; last by rewrite big1 //; case: ifP.
rewrite sum_pick; case: ifP => _; last by case: ifP.
case: ifP => // _; rewrite /v M_gRE /phi -/co; by rewrite -!mulrA.
Qed.

Lemma sl_flavor_ok z d shifts S : all (op_ok beta n_site) (fd_creat d) -> all (fun s => 0 <= s < beta) shifts ->
  exists2 S', sl_flavor g0 sign beta n_site t shifts S (z, d) = Ok S' &
  forall z' s1 s2 l, S' z' s1 s2 l = S z' s1 s2 l + (if z' == z then
    (if (l < n)%N then \sum_(s <- shifts) \sum_(0 <= q < size (fd_creat d)) sl_term z d (size shifts) s q s1 s2 (phi l (x_of s d q)) else 0) else 0).
Proof.
move=> hc hs; rewrite /sl_flavor [(z, d).2]/= [(z, d).1]/=.
case ec: (fd_creat d) => [|c0 cs].
  exists S => // z' s1 s2 l; case: eqP => _; rewrite ?addr0 //; case: ifP => _; rewrite ?addr0 //.
  by rewrite big1 ?addr0 // => s _; rewrite big_nil.
rewrite -ec.
have [|S' -> h] := @obfold_sum K _ (sl_walk g0 sign beta n_site t z d (size shifts))
  (fun s z' s1 s2 l => if z' == z then (if (l < n)%N then \sum_(0 <= q < size (fd_creat d)) sl_term z d (size shifts) s q s1 s2 (phi l (x_of s d q)) else 0) else 0) shifts S.
- move=> S1 s hin; have s0 := allP hs s hin; rewrite /sl_walk.
  have [vals e [h1 h2]] := legendre_values [seq x_val K beta c.2 s | c <- fd_creat d].
  rewrite size_map in e h1 h2; rewrite e /=.
  have [|S2 -> h] := @obfold_sum K _ (sl_creator g0 sign beta n_site t z d (size shifts) s vals)
    (fun q z' s1 s2 l => if z' == z then (if (l < n)%N then sl_term z d (size shifts) s q s1 s2 (phi l (x_of s d q)) else 0) else 0)
    (iota 0 (size (fd_creat d))) S1.
  + move=> S3 q; rewrite mem_iota /= add0n => lq; apply: sl_creator_ok => // l hl.
    by rewrite h2 // (nth_map (0%N, 0)) // x_valE.
  exists S2 => // z' s1 s2 l; rewrite h /index_iota subn0; case: eqP => // _; last by rewrite big1.
  by case: ifP => // _; rewrite big1.
exists S' => // z' s1 s2 l; rewrite h; case: eqP => // _; last by rewrite big1.
by case: ifP => // _; rewrite big1.
Qed.

(* the optimized version *)
Lemma nth_flat (xs : seq rat) (f : rat -> seq K) m w q : (forall s, size (f s) = m) -> (w < size xs)%N -> (q < m)%N ->
  nth 0 (flatten [seq f s | s <- xs]) (w * m + q) = nth 0 (f (nth 0 xs w)) q.
Proof.
move=> hm; elim: xs w => [|x xs ih] [|w] //= hw hq.
  by rewrite mul0n add0n nth_cat hm hq.
by rewrite nth_cat hm mulSn -addnA ltnNge leq_addr /= addKn ih.
Qed.
Lemma size_flat (xs : seq rat) (f : rat -> seq K) m : (forall s, size (f s) = m) -> size (flatten [seq f s | s <- xs]) = (size xs * m)%N.
Proof. by move=> hm; elim: xs => [|x xs ih] //=; rewrite size_cat hm ih mulSn. Qed.

Lemma opt_creator_ok z d shifts vals S q : all (op_ok beta n_site) (fd_creat d) -> (q < size (fd_creat d))%N ->
  all (fun s => 0 <= s < beta) shifts ->
  shape vals = nseq n (size shifts * size (fd_creat d))%N ->
  (forall l w, (l < n)%N -> (w < size shifts)%N -> ent vals l (w * size (fd_creat d) + q)%N = (legendreP K l).[x_of (nth 0 shifts w) d q]) ->
  exists2 S', opt_creator g0 sign beta n_site t z d shifts vals S q = Ok S' &
  forall z' s1 s2 l, S' z' s1 s2 l = S z' s1 s2 l +
    (if z' == z then (if (l < n)%N then \sum_(s <- shifts) sl_term z d (size shifts) s q s1 s2 (phi l (x_of s d q)) else 0) else 0).
Proof.
move=> hc lq hs sh hv; have /andP[c1 _] := all_nthP (0%N, 0) hc q lq.
rewrite /opt_creator c1; set c := nth (0%N, 0) (fd_creat d) q in c1 *.
have [||m -> hm] := @obfoldP (nat -> nat -> K) (fun m w =>
   obfold (fun m l => obind (get (lg_sqrt t) l) (fun sq => obind (get2 vals l (w * size (fd_creat d) + q)%N) (fun v =>
             Ok (fun l' w' => if (l' == l) && (w' == w) then sq * v else m l' w'))))
             m (iota 0 (lg_n t)))
   (fun k m => forall l w, (l < n)%N -> (w < k)%N -> m l w = phi l (x_of (nth 0 shifts w) d q)) (size shifts) (fun _ _ => 0).
- by [].
- move=> w m hw hm.
  have [||m' -> hm'] := @obfoldP (nat -> nat -> K) (fun m l => obind (get (lg_sqrt t) l) (fun sq => obind (get2 vals l (w * size (fd_creat d) + q)%N) (fun v =>
             Ok (fun l' w' => if (l' == l) && (w' == w) then sq * v else m l' w'))))
     (fun k m => (forall l w', (l < n)%N -> (w' < w)%N -> m l w' = phi l (x_of (nth 0 shifts w') d q)) /\
        forall l, (l < k)%N -> m l w = phi l (x_of (nth 0 shifts w) d q)) (lg_n t) m.
  + by [].
  + move=> l m1; rewrite tn => hl [h1 h2].
    have hq : (w * size (fd_creat d) + q < size shifts * size (fd_creat d))%N.
      apply: (@leq_trans (w * size (fd_creat d) + size (fd_creat d))%N); first by rewrite ltn_add2l.
      by rewrite addnC -mulSn leq_mul2r hw orbT.
    rewrite (get_ok 0) ?ts //= (get2_ok sh) //= hv // hsq //; eexists; first reflexivity.
    split=> [l' w' hl' hw'|l' hl'].
      by rewrite [w' == w]ltn_eqF // andbF h1.
    rewrite eqxx andbT; case: eqP => [->|ne] //; apply: h2; move: hl' ne; clear; lia.
  exists m' => // l w' hl; rewrite ltnS leq_eqVlt => /predU1P[->|hw'].
    by apply: hm'.2; rewrite tn.
  exact: hm'.1.
rewrite /=; eexists; first reflexivity; move=> z' s1 s2 l; rewrite tn.
rewrite [s1 == _]eq_sym; case: (z' == z) => /=; last by rewrite addr0.
case: ifP => [/and3P[e1 e2 e3]|ne]; last first.
  case: ifP => e3; last by rewrite addr0.
  rewrite big1 ?addr0 // => s _; rewrite /sl_term -/c; case: ifP => // /andP[e1 e2].
  by move: ne; rewrite e1 e2 e3.
rewrite e3; congr (_ + _); rewrite [RHS](big_nth 0); apply: eq_big_nat => w /andP[_ hw].
have hsw : 0 <= nth 0 shifts w < beta by apply: (allP hs); exact: mem_nth.
rewrite hm // coeffE // /sl_term -/c e1 e2 /= /M_gR_flat.
have -> : \sum_(0 <= p < size (fd_annih d)) fd_M d q p * gR_flat g0 z d shifts p (s2 * size shifts + w)%N =
  \sum_(0 <= p < size (fd_annih d)) fd_M d q p *
      g0 ((nth (0%N, 0) (fd_annih d) p).2 + nth 0 shifts w) z (nth (0%N, 0) (fd_annih d) p).1 s2.
  apply: eq_bigr => p _; rewrite /gR_flat modnMDl modn_small // divnMDl ?divn_small ?addn0 //.
  by apply: leq_ltn_trans hw.
by rewrite mulrA [phi _ _ * _]mulrC.
Qed.

Lemma opt_flavor_ok z d shifts S : all (op_ok beta n_site) (fd_creat d) -> all (fun s => 0 <= s < beta) shifts ->
  exists2 S', opt_flavor g0 sign beta n_site t shifts S (z, d) = Ok S' &
  forall z' s1 s2 l, S' z' s1 s2 l = S z' s1 s2 l + (if z' == z then
    (if (l < n)%N then \sum_(s <- shifts) \sum_(0 <= q < size (fd_creat d)) sl_term z d (size shifts) s q s1 s2 (phi l (x_of s d q)) else 0) else 0).
Proof.
move=> hc hs; rewrite /opt_flavor.
case ec: (fd_creat d) => [|c0 cs].
  exists S => // z' s1 s2 l; case: eqP => _; rewrite ?addr0 //; case: ifP => _; rewrite ?addr0 //.
  by rewrite big1 ?addr0 // => s _; rewrite big_nil.
rewrite -ec.
pose f s := [seq x_val K beta c.2 s | c <- fd_creat d].
have sf s : size (f s) = size (fd_creat d) by rewrite size_map.
have [vals e [h1 h2]] := legendre_values (flatten [seq f s | s <- shifts]).
rewrite (size_flat _ sf) in e h1 h2; rewrite e /=.
have [|S' -> h] := @obfold_sum K _ (opt_creator g0 sign beta n_site t z d shifts vals)
  (fun q z' s1 s2 l => if z' == z then (if (l < n)%N then \sum_(s <- shifts) sl_term z d (size shifts) s q s1 s2 (phi l (x_of s d q)) else 0) else 0)
  (iota 0 (size (fd_creat d))) S.
- move=> S1 q; rewrite mem_iota /= add0n => lq; apply: opt_creator_ok => // l w hl hw.
  have hsw : 0 <= nth 0 shifts w < beta by apply: (allP hs); exact: mem_nth.
  rewrite h2 //; last first.
    apply: (@leq_trans (w * size (fd_creat d) + size (fd_creat d))%N); first by rewrite ltn_add2l.
    by rewrite addnC -mulSn leq_mul2r hw orbT.
  by rewrite (nth_flat sf) // (nth_map (0%N, 0)) // x_valE.
exists S' => // z' s1 s2 l; rewrite h; congr (_ + _); case: eqP => // _; last by rewrite big1.
case: ifP => // _; last by rewrite big1.
by rewrite exchange_big /= /index_iota subn0.
Qed.

End Sl.
