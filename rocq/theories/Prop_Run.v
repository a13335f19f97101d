(* Property theorems: C90 (no run of the sampling loop fails). *)
From Coq Require Import ZArith NArith.
From mathcomp Require Import all_ssreflect order ssralg ssrnum ssrint rat matrix algC zify.
From mathcomp.algebra_tactics Require Import ring.
From Verif Require Import Outcome MatLib MatSpec SubModel SubSpec SubProofs Prop_Sub.
From Verif Require Import UMatModel UMatSpec UMatProofs Prop_UMat.
From Verif Require Import ManModel ManSpec ManCount ManProofs ManGlobal ManShift Prop_Man.
From Verif Require Import SplineModel GreenModel GreenProofs GreenTableModel GreenTableProofs Prop_GreenTable StartModel Prop_Shift.
From Verif Require Import BinModel Prop_Bin LegendreModel DensModel DensSpec SlModel OrderModel MeasModel MeasSpec Prop_Meas Prop_Start.
From Verif Require Import RunModel RunProofs RunLive.

Set Implicit Arguments.
Unset Strict Implicit.
Unset Printing Implicit Defensive.

Local Open Scope ring_scope.
Import Order.TTheory GRing.Theory Num.Theory.

(* ------------------------------------------------------------------ C90 *)

Lemma shift_range (beta c r t : rat) : 0 <= r < 1 -> 0 < beta -> 0 <= c < 2%:R -> 0 <= t < beta ->
  exists2 y, mymod (t + (r - 1 / 2%:R) * (beta * c)) beta = Ok y & 0 <= y < beta.
Proof.
move=> /andP[r0 r1] b0 /andP[c0 c2] /andP[t0 tb]; set x := t + _.
have h2 : 0 < (2%:R : rat) by rewrite ltr0n.
have b1 : 0 <= beta * c by rewrite mulr_ge0 ?(ltW b0).
have b2 : beta * c / 2%:R < beta by rewrite ltr_pdivr_mulr // ltr_pmul2l.
have lo : - beta < x.
  have a1 : - (beta * c / 2%:R) <= (r - 1 / 2%:R) * (beta * c).
    have -> : - (beta * c / 2%:R) = (0 - 1 / 2%:R) * (beta * c) by ring.
    by rewrite ler_wpmul2r // ler_add2r.
  by rewrite -[- beta]add0r ler_lt_add // (lt_le_trans _ a1) // ltr_opp2.
have hi : x < 2%:R * beta.
  have a1 : (r - 1 / 2%:R) * (beta * c) <= beta * c / 2%:R.
    have -> : beta * c / 2%:R = (1 - 1 / 2%:R) * (beta * c) by field.
    by rewrite ler_wpmul2r // ler_add2r ltW.
  have -> : 2%:R * beta = beta + beta by ring.
  by rewrite ltr_add // (le_lt_trans a1).
have bn : beta != 0 by rewrite gt_eqF.
case: (leP 0 x) => x0.
  have q0 : 0 <= x / beta by rewrite divr_ge0 // ltW.
  case: (ltP x beta) => xb.
    have e : truncq (x / beta) = 0 by apply: trunc_unique => //; rewrite add0r ltr_pdivr_mulr // mul1r.
    exists x; last by rewrite x0.
    rewrite /mymod x0 e; have -> : is_int32 0 by have /andP[] : is_int32 0 && is_int32 (0 + 1) by apply: int32_ok => //; move: two31_gt1; move: two31 => k; lia.
    by rewrite mulr0 subr0.
  have e : truncq (x / beta) = 1.
    by apply: trunc_unique => //; rewrite ?ler_pdivl_mulr ?ltr_pdivr_mulr ?mul1r.
  exists (x - beta); last by rewrite subr_ge0 xb ltr_subl_addr -mulr2n -mulr_natl.
  exact: mymod_one_pos.
have q0 : 0 <= - x / beta by rewrite divr_ge0 ?(ltW b0) // oppr_ge0 ltW.
have e : truncq (- x / beta) = 0.
  by apply: trunc_unique => //; rewrite add0r ltr_pdivr_mulr // mul1r ltr_oppl.
exists (x + beta); last first.
  apply/andP; split; first by rewrite -ler_subl_addr sub0r ltW.
  by rewrite gtr_addr.
rewrite /mymod leNgt x0 /= e.
have -> : is_int32 0 && is_int32 (0 + 1) by apply: int32_ok => //; move: two31_gt1; move: two31 => k; lia.
by rewrite add0r mulr1.
Qed.

(* What the program makes of a random number of [0, 1): an index below N, a time of [0, beta)
   and, if the step size is below 2 beta, a shifted time of [0, beta) again. *)
Theorem C90_random :
  forall (beta c r t : rat) (N : nat), 0 <= r < 1 -> 0 < beta -> 0 <= c < 2%:R -> 0 <= t < beta ->
    [/\ (0 < N)%N -> (pick_index N r < N)%N,
        (0 < N)%N -> (pick_index N r)%:R <= N%:R * r < (pick_index N r).+1%:R,
        0 <= pick_time beta r < beta, 0 <= pick_shift beta c t r < beta &
        exists k : int, pick_shift beta c t r = t + (r - 1 / 2%:R) * (beta * c) - k%:~R * beta].
Proof.
move=> beta c r t N rr b0 cc tt; have /andP[r0 r1] := rr.
have idx : (0 < N)%N -> (pick_index N r)%:R <= N%:R * r < (pick_index N r).+1%:R.
  move=> n0; have x0 : 0 <= N%:R * r by rewrite mulr_ge0 // ler0n.
  have [k0 h1 h2] := trunc_pos x0; rewrite /pick_index.
  case: (truncq _) k0 h1 h2 => // k _ h1 h2.
  by rewrite -[X in X <= _]/(k%:~R) h1 /= -[X in _ < X]/(k.+1%:~R) intS addrC.
split=> //.
- move=> n0; have /andP[h _] := idx n0; rewrite -(ltr_nat [numDomainType of rat]); apply: le_lt_trans h _.
  by rewrite -{2}[N%:R]mulr1 ltr_pmul2l // ltr0n.
- by rewrite /pick_time mulr_ge0 ?(ltW b0) //= -{2}[beta]mul1r ltr_pmul2r.
- by have [y ey yr] := shift_range rr b0 cc tt; rewrite /pick_shift ey.
have [y ey yr] := shift_range rr b0 cc tt; rewrite /pick_shift ey.
exact: mymod_ok ey.
Qed.
Print Assumptions C90_random.

(* From any walker the program can be in between updates, with the times of all vertices in a
   set P that holds the proposed times, every number of calls of update, with any random
   numbers, either goes on drawing random numbers or ends normally in such a walker again: no
   exception, no access out of range, no inversion of a singular matrix.  The interaction has
   to have usable types with an operator on every flavor, and a global update has to map every
   type to one with as many operators and states. *)
Theorem C90_runs :
  forall (F : numFieldType) (Tm : eqType) (ani : F) (G0 : sop Tm -> sop Tm -> F) (U : seq (vdef F))
         (x0 : sop Tm) (nf : nat) (tm0 : Tm) (junk : fmat F) (beta : F) (kmax max_order : nat)
         (R : Type) (rval : R -> F) (rhalf : R -> bool) (ridx : nat -> R -> nat) (rtime : R -> Tm)
         (rshift : Tm -> R -> Tm) (n_ins_rem n_shift n_spin_flip mperiod : nat) (maps : seq (seq nat)) (jk : F)
         (P : pred Tm) (n : nat) (x : sampler F Tm R),
    sp_types_ok U ani nf -> random_ok rval ridx -> 0 < beta ->
    (forall t, (t < size U)%N -> (0 < vd_naf (nth (vdef0 F) U t))%N) ->
    (forall v : vertex Tm, (v_type v < size U)%N -> sp_covers U nf v) ->
    (forall r, P (rtime r)) -> (forall t r, P t -> P (rshift t r)) ->
    (forall m, m \in maps -> size m = size U /\ forall t, (t < size U)%N ->
       [/\ (nth 0%N m t < size U)%N,
           vd_rank (nth (vdef0 F) U (nth 0%N m t)) = vd_rank (nth (vdef0 F) U t) &
           vd_naf (nth (vdef0 F) U (nth 0%N m t)) = vd_naf (nth (vdef0 F) U t)]) ->
    let walker (y : sampler F Tm R) := sm_sub nf jk y in
    let ready y := [/\ reach ani G0 U x0 nf tm0 junk (walker y), ~~ su_trying (walker y) &
                       all (fun v => P (v_time v)) (su_v (walker y))] in
    ready x ->
    let res := iter_out (update ani G0 U x0 tm0 junk beta kmax max_order rval rhalf ridx rtime rshift
                           n_ins_rem n_shift n_spin_flip mperiod maps nf jk) n x in
    res = Diverge \/ exists2 y, res = Ok y & ready y.
Proof.
move=> F Tm ani G0 U x0 nf tm0 junk beta kmax mo R rval rhalf ridx rtime rshift a b c d maps jk P n x.
move=> tok [rpos rok] bpos afp cov pt ps fits walker ready [h1 h2 h3]; cbv zeta.
have ix : idle ani G0 U x0 nf tm0 junk P (walker x) by split=> //; rewrite /timed all_map.
have [->|[y -> [k1 k2 k3]]] := run_ok kmax mo rhalf pt ps rok tok rpos bpos afp cov a b c d fits n ix; first by left.
by right; exists y => //; split=> //; move: k3; rewrite /timed all_map.
Qed.
Print Assumptions C90_runs.

(* the reverse of a map, whatever the map *)
Lemma reverse_range n m : (0 < n)%N -> all (fun d => d < n)%N m -> size m = n ->
  size (reverse_map n m) = n /\ all (fun d => d < n)%N (reverse_map n m).
Proof.
move=> n0 al sm; rewrite /reverse_map.
have h l acc : all (fun i => i < n)%N l -> size acc = n -> all (fun d => d < n)%N acc ->
    let r := foldl (fun rev iv => set_nth 0%N rev (nth 0%N m iv) iv) acc l in size r = n /\ all (fun d => d < n)%N r.
  elim: l acc => [|i l ih] acc //= /andP[il ll] sa aa; apply: ih => //.
    rewrite size_set_nth sa; apply/maxn_idPr; apply: (allP al); apply: mem_nth; by rewrite sm.
  apply/(all_nthP 0%N) => k; rewrite size_set_nth sa nth_set_nth /= => kl.
  case: eqP => // _; case: (ltnP k (size acc)) => ka; first by apply: (allP aa); apply: mem_nth.
  by rewrite nth_default.
apply: h; rewrite ?size_nseq //; first by apply/allP => i; rewrite mem_iota.
by apply/allP => i; rewrite mem_nseq => /andP[_ /eqP ->].
Qed.

Lemma maps_range n k ts l : read_global_updates n (Posz k :: ts) = Ok l ->
  forall m, m \in l -> size m = n /\ all (fun d => d < n)%N m.
Proof.
move=> /C35_accepted_maps[ms [_ h1 h2]] m; rewrite h2 => /hasP[m0 /h1[z a]] /orP[] /eqP -> //.
case: (posnP n) => n0; last exact: reverse_range.
by rewrite n0 /reverse_map.
Qed.

(* Started with model.U, not zero, and without a configuration, the program never fails: every
   number of calls of update, with any random numbers of [0, 1) and with the global updates of
   any file that was accepted, either goes on drawing random numbers or ends normally, with the
   times of all vertices in [0, beta) and not more vertices than allowed, and every measurement
   of the walker then succeeds. *)
Theorem C90_onsite :
  forall (C : numClosedFieldType) (val : cnum -> C) (ofint : int -> cnum) (c0 : cnum) (maxel w64 w32 fuel : nat) (cplx : bool)
         (Dec : Type) (parse : Dec -> rat_eqType) (ani junk : C) (x0 : sop rat_eqType) (i : input C Dec) (st : started C) (u : C)
         (tm0 : rat_eqType) (jm : fmat C) (R : Type) (rnd : R -> rat) (c : rat)
         (kmax max_order n_ins_rem n_shift n_spin_flip mperiod k : nat) (ts : seq int) (maps : seq (seq nat)) (n : nat) (rs : seq R),
    start val ofint c0 maxel w64 w32 fuel cplx parse ani junk x0 i = Ok st ->
    in_U i = Some u -> u != 0 -> in_config i = None -> 0 < in_beta i ->
    ani != 1 + 1 / 100%:R -> ani != - (1 / 100%:R) ->
    (forall r, 0 <= rnd r < 1) -> 0 <= c < 2%:R ->
    maps = [::] \/ read_global_updates (size (st_U st)) (Posz k :: ts) = Ok maps ->
    let b := in_beta i in let nf := in_spins i in
    let U := [seq d.1 | d <- st_U st] in let G0 := lookup val fuel (st_green st) in
    let res := iter_out (update ani G0 U x0 tm0 jm (ratr b) kmax max_order (fun r => ratr (rnd r))
        (fun r => pick_half (rnd r)) (fun N r => pick_index N (rnd r)) (fun r => pick_time b (rnd r))
        (fun t r => pick_shift b c t (rnd r)) n_ins_rem n_shift n_spin_flip mperiod maps nf junk) n
      (Sampler [:: st_walker st] 0 stats0 stats0 0 rs) in
    res = Diverge \/
    exists y, let s := sm_sub nf junk y in
      [/\ res = Ok y, all (fun v => 0 <= v_time v < b) (su_v s), (size (su_v s) <= max_order)%N &
      forall (g0 : rat -> nat -> nat -> nat -> C) (n_bin : nat) (shifts : seq rat) (tau : rat),
        (0 < n_bin)%N -> is_int32 n_bin -> all (fun t => 0 <= t < b) shifts ->
        exists o, measure_observables cplx ani U x0 g0 b (in_sites i) n_bin nf shifts tau s = Ok o].
Proof.
move=> C val ofint c0 maxel w64 w32 fuel cplx Dec parse ani junk x0 i st u tm0 jm R rnd c kmax mo a1 a2 a3 a4 k ts maps n rs.
move=> es hU u0 hc b0 n1 n2 hr cc hm b nf U G0 res.
have [vs [e1 e2 e3 e4 e5]] := startI es.
have [w1 w2 w3 w4] := C86_walker tm0 jm es hc.
have [hs hn _ hi] := interactionI e1.
have nfb : (nf == 1%N) || (nf == 2%N) by rewrite /nf; have := hn; rewrite hU => /(_ isT)[] ->.
have [vl [h1 h2 h3 h4]] := @onsite_ok C (in_sites i) nf u (delta0 C) nfb.
have ev : vl = st_U st.
  by move: e1; rewrite /interaction hU; case: (in_Ufile i) => //; rewrite h1 => -[].
rewrite ev in h2 h4.
have dU t : (t < size U)%N -> nth (vdef0 C) U t = (nth (vdef0 C, 0%N) (st_U st) t).1.
  by rewrite size_map => tl; rewrite (nth_map (vdef0 C, 0%N)).
have df t : (t < size U)%N -> onsite_def nf u (delta0 C) t (nth (vdef0 C) U t).
  by move=> tl; rewrite dU //; apply: h4; move: tl; rewrite size_map.
have dp : 0 < delta0 C by rewrite /delta0 divr_gt0 ?ltr01 // ltr0n.
have tok : sp_types_ok U ani nf.
  apply/(all_nthP (vdef0 C)) => t tl; have [[er en] _ _ eu al] := df t tl.
  have tl' : (t < size (st_U st))%N by move: tl; rewrite size_map.
  have [i1 i2 i3 i4] := hi t tl'; rewrite -(dU t tl) in i1 i2 i3 i4.
  rewrite /sp_type_ok er en i2 er i1 er i4 eu u0 !eqxx /= !al //=.
  have d0 : delta0 C != 0 by rewrite gt_eqF.
  have d1 : 1 + delta0 C != 0 by rewrite gt_eqF // addr_gt0 // ltr01.
  have d2 : 1 + delta0 C != 1 by rewrite -subr_eq0 addrAC subrr add0r.
  have d3 : - delta0 C != 1 by rewrite lt_eqF // (@lt_trans _ _ 0) ?ltr01 // oppr_lt0.
  by rewrite oppr_eq0 d0 d1 d2 d3 /= ![_ == ani]eq_sym n1 n2.
have rok : random_ok (fun r => ratr (rnd r) : C) (fun N r => pick_index N (rnd r)).
  split=> [r|N r]; first by rewrite ler0q; have /andP[] := hr r.
  by have t0 : 0 <= (0 : rat) < b by [rewrite lexx b0]; have [] := C90_random N (hr r) b0 cc t0.
have bpos : 0 < (ratr b : C) by rewrite ltr0q.
have afp t : (t < size U)%N -> (0 < vd_naf (nth (vdef0 C) U t))%N by move/df => [[_ ->]].
have cov (v : vertex rat_eqType) : (v_type v < size U)%N -> sp_covers U nf v.
  move=> tl; have [[er _] ef _ _ _] := df _ tl; rewrite /sp_covers /sp_flavor /sp_def er ef /=.
  by case/orP: nfb => /eqP -> /=.
pose P : pred rat_eqType := fun t => 0 <= t < b.
have pt r : P (pick_time b (rnd r)).
  by have t0 : 0 <= (0 : rat) < b by [rewrite lexx b0]; have [] := C90_random 0 (hr r) b0 cc t0.
have ps (t : rat_eqType) r : P t -> P (pick_shift b c t (rnd r)).
  by move=> pt'; have [] := C90_random 0 (hr r) b0 cc pt'.
have fits m : m \in maps -> size m = size U /\ forall t, (t < size U)%N ->
   [/\ (nth 0%N m t < size U)%N, vd_rank (nth (vdef0 C) U (nth 0%N m t)) = vd_rank (nth (vdef0 C) U t) &
       vd_naf (nth (vdef0 C) U (nth 0%N m t)) = vd_naf (nth (vdef0 C) U t)].
  case: hm => [-> //|hm] mi; have := maps_range hm mi; rewrite -(size_map fst) => -[sm am].
  split=> // t tl; have ml : (nth 0%N m t < size U)%N by apply: (allP am); apply: mem_nth; rewrite sm.
  have [[-> ->] _ _ _ _] := df t tl; by have [[-> ->] _ _ _ _] := df _ ml.
have rd : [/\ reach ani G0 U x0 nf tm0 jm (st_walker st), ~~ su_trying (st_walker st) & all (fun v => P (v_time v)) (su_v (st_walker st))].
  by split; [exact: w4 | exact: w3 | rewrite w1].
have [ed|[y ey [y1 y2 y3]]] := @C90_runs C rat_eqType ani G0 U x0 nf tm0 jm (ratr b) kmax mo R _ (fun r => pick_half (rnd r)) _ _ _ a1 a2 a3 a4 maps junk P n
  (Sampler [:: st_walker st] 0 stats0 stats0 0 rs) tok rok bpos afp cov pt ps fits rd; first by left; exact: ed.
right; exists y; split; [exact: ey | exact: y3 | |].
  have [_ rok'] := rok; have [] := C33_order_limit rok' ey; rewrite /sm_sub /= ?w1 //.
by move=> g0 n_bin shifts tau nb n31 hsh; exact: (C86_measured g0 tau es tok y1 y2 b0 nb n31 y3 hsh).
Qed.
Print Assumptions C90_onsite.

(* A run that still waits for random numbers can always be continued: if every index below
   every N can be drawn, then whatever numbers have been drawn before there are further ones
   with which the calls of update come to an end.  The rejection loops, which draw until the
   number is new, are never stuck. *)
Theorem C90_completes :
  forall (F : numFieldType) (Tm : eqType) (ani : F) (G0 : sop Tm -> sop Tm -> F) (U : seq (vdef F))
         (x0 : sop Tm) (nf : nat) (tm0 : Tm) (junk : fmat F) (beta : F) (kmax max_order : nat)
         (R : Type) (rval : R -> F) (rhalf : R -> bool) (ridx : nat -> R -> nat) (rtime : R -> Tm)
         (rshift : Tm -> R -> Tm) (n_ins_rem n_shift n_spin_flip mperiod : nat) (maps : seq (seq nat)) (jk : F)
         (n : nat) (h : store F Tm) (p : nat) (c cs : stats) (step : nat) (rs : seq R),
    (forall N i, (i < N)%N -> exists r, ridx N r = i) ->
    let run rs := iter_out (update ani G0 U x0 tm0 junk beta kmax max_order rval rhalf ridx rtime rshift
                              n_ins_rem n_shift n_spin_flip mperiod maps nf jk) n (Sampler h p c cs step rs) in
    (exists e, run (rs ++ e) <> Diverge) /\
    forall e y, run rs = Ok y -> exists y', [/\ run (rs ++ e) = Ok y', sm_h y' = sm_h y, sm_p y' = sm_p y & sm_rs y' = sm_rs y ++ e].
Proof.
move=> F Tm ani G0 U x0 nf tm0 junk beta kmax mo R rval rhalf ridx rtime rshift a1 a2 a3 a4 maps jk n h p c cs step rs onto run.
have [r0 _] := onto 1%N 0%N isT.
have [m l] := liveS_iter n (liveS_update r0 ani G0 U x0 tm0 junk beta kmax mo rval rhalf rtime rshift onto a1 a2 a3 a4 maps nf jk).
split; first by have [e he] := l (Sampler h p c cs step rs); exists e.
by move=> e y ey; exists (more y e); split=> //; exact: (m _ e _ ey).
Qed.
Print Assumptions C90_completes.

(* With a generator that can give every number of [0, 1), the run of C90_onsite ends normally
   for a suitable continuation of any random numbers drawn so far. *)
Theorem C90_onsite_completes :
  forall (C : numClosedFieldType) (val : cnum -> C) (ofint : int -> cnum) (c0 : cnum) (maxel w64 w32 fuel : nat) (cplx : bool)
         (Dec : Type) (parse : Dec -> rat_eqType) (ani junk : C) (x0 : sop rat_eqType) (i : input C Dec) (st : started C) (u : C)
         (tm0 : rat_eqType) (jm : fmat C) (R : Type) (rnd : R -> rat) (c : rat)
         (kmax max_order n_ins_rem n_shift n_spin_flip mperiod k : nat) (ts : seq int) (maps : seq (seq nat)) (n : nat) (rs : seq R),
    start val ofint c0 maxel w64 w32 fuel cplx parse ani junk x0 i = Ok st ->
    in_U i = Some u -> u != 0 -> in_config i = None -> 0 < in_beta i ->
    ani != 1 + 1 / 100%:R -> ani != - (1 / 100%:R) ->
    (forall r, 0 <= rnd r < 1) -> (forall q, 0 <= q < 1 -> exists r, rnd r = q) -> 0 <= c < 2%:R ->
    maps = [::] \/ read_global_updates (size (st_U st)) (Posz k :: ts) = Ok maps ->
    let b := in_beta i in let nf := in_spins i in
    let U := [seq d.1 | d <- st_U st] in let G0 := lookup val fuel (st_green st) in
    exists e y,
      iter_out (update ani G0 U x0 tm0 jm (ratr b) kmax max_order (fun r => ratr (rnd r))
        (fun r => pick_half (rnd r)) (fun N r => pick_index N (rnd r)) (fun r => pick_time b (rnd r))
        (fun t r => pick_shift b c t (rnd r)) n_ins_rem n_shift n_spin_flip mperiod maps nf junk) n
      (Sampler [:: st_walker st] 0 stats0 stats0 0 (rs ++ e)) = Ok y.
Proof.
move=> C val ofint c0 maxel w64 w32 fuel cplx Dec parse ani junk x0 i st u tm0 jm R rnd c kmax mo a1 a2 a3 a4 k ts maps n rs.
move=> es hU u0 hc b0 n1 n2 hr onto cc hm b nf U G0.
have onto' N j : (j < N)%N -> exists r, pick_index N (rnd r) = j.
  move=> jl; have n0 : 0 < (N%:R : rat) by rewrite ltr0n (leq_ltn_trans _ jl).
  have [|r er] := onto (j%:R / N%:R); first by rewrite divr_ge0 ?ler0n //= ltr_pdivr_mulr // mul1r ltr_nat.
  exists r; rewrite /pick_index er mulrCA divff ?mulr1; last by rewrite gt_eqF.
  have [k0 h1 h2] := trunc_pos (ler0n [numDomainType of rat] j).
  case: (truncq _) k0 h1 h2 => // m _ h1 h2.
  have {}h1 : (m <= j)%N by rewrite -(ler_nat [numDomainType of rat]); exact: h1.
  have {}h2 : (j < m.+1)%N.
    by rewrite -(ltr_nat [numDomainType of rat]) -[X in _ < X]/(m.+1%:~R) intS addrC.
  by apply/eqP; rewrite eqn_leq h1.
have [[e he] _] := @C90_completes C rat_eqType ani G0 U x0 nf tm0 jm (ratr b) kmax mo R (fun r => ratr (rnd r))
  (fun r => pick_half (rnd r)) (fun N r => pick_index N (rnd r)) (fun r => pick_time b (rnd r))
  (fun t r => pick_shift b c t (rnd r)) a1 a2 a3 a4 maps junk n [:: st_walker st] 0 stats0 stats0 0 rs onto'.
exists e; have [ed|[y [ey _ _ _]]] := C90_onsite tm0 jm kmax mo a1 a2 a3 a4 n (rs ++ e) es hU u0 hc b0 n1 n2 hr cc hm.
  by case: he; exact: ed.
by exists y; exact: ey.
Qed.
Print Assumptions C90_onsite_completes.

(* the hypotheses of C90_runs are met: a run of one update that ends with one vertex *)
Example C90_case : exists y,
  [/\ iter_out (update aniX GX UY xX 0%N jX 1 1 1 rvY rhY riY rtY rsY 1 0 0 1 [::] 2 0) 1
        (Sampler [:: sub_new (F := [numFieldType of rat]) [eqType of nat] 2 0] 0 stats0 stats0 0 (iota 0 9)) = Ok y,
      reach (F := [numFieldType of rat]) aniX GX UY xX 2 0%N jX (sm_sub 2 0 y) &
      [seq v_time v | v <- su_v (sm_sub 2 0 y)] = [:: 2%N]].
Proof.
have [s [e re tr ev]] := runY; have e2 := update_one rsY 2 0 stats0 e.
exists (Sampler [:: s] 0 (0, 2)%N stats0 1 [::]); split; [by cbn [iter_out]; rewrite e2 | exact re |].
by rewrite /sm_sub [nth _ _ _]/= ev.
Qed.
Example C90_types_case :
  [/\ sp_types_ok UY aniX 2, forall t, (t < size UY)%N -> (0 < vd_naf (nth (vdef0 _) UY t))%N &
      forall v : vertex [eqType of nat], (v_type v < size UY)%N -> sp_covers UY 2 v].
Proof.
split; [exact tokY | by case | move=> [[[[ty a] t] b] w]; rewrite /sp_covers /sp_flavor /sp_def /v_type /=; by case: ty].
Qed.

(* an input as C90_onsite asks for: one site, two spins, U = 2 and a file with one global update *)
Definition onsite_rows : seq row := [:: Row 0 0 0 0 0 0; Row 0 0 0 1 0 0; Row 1 0 0 0 0 0; Row 1 0 0 1 0 0].
Definition onsite_input : input [numFieldType of algC] rat :=
  Input 1 2 1 1 (Some (2%:R : [numFieldType of algC])) None (Some (Some (Header 2 1 2 1, onsite_rows))) None.
Example C90_onsite_case :
  forall (ofint : int -> cnum) (c0 : cnum) (maxel w64 w32 fuel : nat) (x0 : sop rat_eqType),
  exists st : started [numFieldType of algC],
    [/\ start (F := [numFieldType of algC]) (fun z => ratr (cre z)) ofint c0 maxel w64 w32 fuel false id 7%:R 0 x0 onsite_input = Ok st,
        size (st_U st) = 1%N & read_global_updates (size (st_U st)) [:: Posz 1; Posz 0; Posz 0] = Ok [:: [:: 0%N]]].
Proof.
move=> ofint c0 maxel w64 w32 fuel x0.
have p1 : 0 < 1 / 100%:R :> algC by rewrite divr_gt0 ?ltr01 // ltr0n.
have l1 : 1 / 100%:R <= 1 :> algC by rewrite ler_pdivr_mulr ?ltr0n // mul1r ler1n.
have a1 : 7%:R != 1 + 1 / 100%:R :> algC.
  rewrite gt_eqF //; apply: (@le_lt_trans _ _ (1 + 1)); first by rewrite ler_add2l.
  by rewrite -[1 + 1]/(2%:R) ltr_nat.
have a2 : 7%:R != - (1 / 100%:R) :> algC.
  by rewrite gt_eqF //; apply: (@lt_trans _ _ 0); rewrite ?oppr_lt0 // ltr0n.
have u0 : 2%:R != 0 :> algC by rewrite pnatr_eq0.
have [||||||st [es sz _ _]] := @C86_onsite [numFieldType of algC] (fun z => ratr (cre z)) ofint c0 maxel w64 w32 fuel false rat id 7%:R 0 x0 onsite_input 2%:R (Header 2 1 2 1) onsite_rows erefl erefl u0 (or_intror erefl) isT erefl erefl erefl erefl isT.
- by [].
- rewrite subrr normr0 /tolerance div1r invr_ge0; exact: exprn_ge0.
- by split; [|move=> [|[|f]] // [|s1] // [|s2] // [|[|t]]].
- by move=> [|[|f]] // [|s1] // [|s2].
- exact a1.
- exact a2.
exists st; split; [exact es | exact sz |].
by rewrite sz.
Qed.

(* the hypotheses of C90_completes are met: a run that has no random number waits, and with
   some numbers it ends normally *)
Definition run_mod (rs : seq nat) :=
  iter_out (update aniX GX UY xX 0%N jX 1 1 1 rvY rhY (fun N r => r %% N)%N rtY rsY 1 1 1 1 [::] 2 0) 3
    (Sampler [:: sub_new (F := [numFieldType of rat]) [eqType of nat] 2 0] 0 stats0 stats0 0 rs).
Example C90_completes_case :
  [/\ forall N i, (i < N)%N -> exists r : nat, (r %% N)%N = i, run_mod [::] = Diverge & exists e y, run_mod e = Ok y].
Proof.
have onto N i : (i < N)%N -> exists r : nat, (r %% N)%N = i by move=> il; exists i; exact: modn_small.
split; [exact onto | by rewrite /run_mod | ].
have [t1 t2 t3] := C90_types_case.
have [[e he] _] := @C90_completes _ _ aniX GX UY xX 2 0%N jX 1 1 1 nat rvY rhY (fun N r => r %% N)%N rtY rsY 1 1 1 1 [::] 0 3
  [:: sub_new (F := [numFieldType of rat]) [eqType of nat] 2 0] 0 stats0 stats0 0 [::] onto.
have rok : random_ok rvY (fun N r => r %% N)%N by split=> [r|N r n0]; [exact: lexx | rewrite ltn_mod].
have rd : [/\ reach aniX GX UY xX 2 0%N jX (sub_new (F := [numFieldType of rat]) [eqType of nat] 2 0),
   ~~ su_trying (sub_new (F := [numFieldType of rat]) [eqType of nat] 2 0) &
   all (fun v => predT (v_time v)) (su_v (sub_new (F := [numFieldType of rat]) [eqType of nat] 2 0))].
  by split; [exact: R_new | |].
have [|||ed|[y ey _]] := @C90_runs _ _ aniX GX UY xX 2 0%N jX 1 1 1 nat rvY rhY (fun N r => r %% N)%N rtY rsY 1 1 1 1 [::] 0 predT 3
  (Sampler [:: sub_new (F := [numFieldType of rat]) [eqType of nat] 2 0] 0 stats0 stats0 0 e) t1 rok ltr01 t2 t3 _ _ _ rd.
- by [].
- by [].
- by [].
- by case: he; exact: ed.
by exists e, y; exact: ey.
Qed.
