(* Proofs about mymod and the bare Green function. *)
From mathcomp Require Import all_ssreflect order ssralg ssrnum ssrint rat intdiv zify ring.
From Verif Require Import Outcome GreenModel.

Set Implicit Arguments.
Unset Strict Implicit.
Unset Printing Implicit Defensive.

Local Open Scope ring_scope.
Import Order.TTheory GRing.Theory Num.Theory.

(* rounding towards zero *)
Lemma floor_ok (x : rat) : ((numq x %/ denq x)%Z%:~R <= x) && (x < ((numq x %/ denq x)%Z + 1)%:~R).
Proof.
have d0 := denq_gt0 x; have e := esym (divq_num_den x).
move: (numq x) (denq x) d0 e => n d d0 ->.
have dr : 0 < d%:~R :> rat by rewrite ltr0z.
rewrite ler_pdivl_mulr // ltr_pdivr_mulr // -!intrM ler_int ltr_int.
have e := divz_eq n d; have m0 := modz_ge0 n (lt0r_neq0 d0).
have m1 := ltz_pmod n d0; move: e m0 m1 d0; move: (n %/ d)%Z (modz n d) => q m.
by move=> -> *; apply/andP; split; nia.
Qed.

Lemma trunc_pos x : 0 <= x -> [/\ 0 <= truncq x, (truncq x)%:~R <= x & x < (truncq x + 1)%:~R].
Proof.
move=> x0; rewrite /truncq x0; have /andP [h1 h2] := floor_ok x; split=> //.
by rewrite divz_ge0 ?denq_gt0 // numq_ge0.
Qed.

Lemma trunc_unique (x : rat) (k : int) : 0 <= x -> k%:~R <= x -> x < (k + 1)%:~R -> truncq x = k.
Proof.
move=> x0 h1 h2; have [_ h3 h4] := trunc_pos x0.
have a1 := le_lt_trans h1 h4; have a2 := le_lt_trans h3 h2.
by move: a1 a2; rewrite !ltr_int; lia.
Qed.

Lemma mymod_ok (x beta y : rat) : 0 < beta -> mymod x beta = Ok y ->
  exists k : int, y = x - k%:~R * beta.
Proof.
by move=> b0; rewrite /mymod; case: ifP => _; case: ifP => // _ [<-];
  [exists (truncq (x / beta)) | exists (- (truncq (- x / beta) + 1))]; rewrite ?rmorphN /=; ring.
Qed.

(* in [0, beta) except that a negative multiple of beta goes to beta *)
Lemma mymod_range (x beta y : rat) : 0 < beta -> mymod x beta = Ok y ->
  (0 <= x -> 0 <= y < beta) /\ (x < 0 -> 0 < y <= beta).
Proof.
move=> b0; have bn : beta != 0 by rewrite gt_eqF.
rewrite /mymod; case: (leP 0 x) => x0; case: ifP => // _ [<-]; split=> // xx.
  have [k0 h1 h2] := trunc_pos (divr_ge0 x0 (ltW b0)).
  rewrite subr_ge0 ltr_subl_addr mulrC -ler_pdivl_mulr // h1 /=.
  by rewrite -{1}[beta]mul1r -mulrDl -ltr_pdivr_mulr // addrC -[1 in X in _ < _ + X]/(1%:~R) -rmorphD.
have nx : 0 <= - x / beta by apply: divr_ge0; rewrite ?oppr_ge0 ltW.
have [k0 h1 h2] := trunc_pos nx.
apply/andP; split.
  by rewrite mulrC -ltr_subl_addl sub0r -ltr_pdivr_mulr.
have -> : x + beta * (truncq (- x / beta) + 1)%:~R = beta - (- x - (truncq (- x / beta))%:~R * beta).
  by rewrite intrD; ring.
by rewrite ger_addl oppr_le0 subr_ge0 -ler_pdivl_mulr.
Qed.

Lemma two31_gt1 : 1 < two31. Proof. exact: exprn_egt1. Qed.

Lemma int32_arith (t k : int) : 1 < t -> 0 <= k -> k < t - 1 ->
  (- t <= k) && (k < t) && ((- t <= k + 1) && (k + 1 < t)).
Proof. lia. Qed.
Lemma int32_ok k : 0 <= k -> k < two31 - 1 -> is_int32 k && is_int32 (k + 1).
Proof. exact: int32_arith two31_gt1. Qed.

(* values used in the examples *)
Lemma two31_gt3 : 3%:Z < two31.
Proof. by rewrite /two31 -[31%N]/(2 + 29)%N exprD; apply: (@lt_le_trans _ _ 4%:Z) => //; rewrite ler_pmulr // exprn_ege1. Qed.
Lemma int32_one : is_int32 1 && is_int32 (1 + 1).
Proof. by apply: int32_ok; [|move: two31_gt3; move: two31 => t; lia]. Qed.
Lemma mymod_one_pos x beta : 0 <= x -> truncq (x / beta) = 1 -> mymod x beta = Ok (x - beta).
Proof.
move=> x0 e; rewrite /mymod x0 e; have /andP [h _] := int32_one; rewrite h mulr1.
exact: erefl.
Qed.
Lemma mymod_one_neg x beta : x < 0 -> truncq (- x / beta) = 1 -> mymod x beta = Ok (x + beta * 2%:R).
Proof.
move=> x0 e; rewrite /mymod (lt_geF x0) e; have h := int32_one; rewrite h.
by congr (Ok (_ + _ * _)); rewrite intrD.
Qed.
Lemma trunc_int (k : int) : 0 <= k -> truncq (k%:~R / 1) = k.
Proof. by move=> k0; rewrite divr1; apply: trunc_unique; rewrite ?ler0z ?ltr_int ?ltr_addl. Qed.
Lemma not_int32 : is_int32 two31 = false.
Proof. by rewrite /is_int32 ltxx andbF. Qed.
Lemma mymod_huge : mymod two31%:~R 1 = UB.
Proof.
have t0 : 0 <= two31 by apply: exprn_ge0.
move: not_int32 t0; rewrite /mymod; move: two31 => t nt t0.
have t1 : 0 <= t%:~R :> rat by rewrite ler0z.
rewrite t1 (trunc_int t0) nt.
exact: erefl.
Qed.

Lemma mymod_total (x beta : rat) : 0 < beta -> `|x| / beta < (two31 - 1)%:~R ->
  exists y, mymod x beta = Ok y.
Proof.
move=> b0; rewrite /mymod; case: (leP 0 x) => x0.
  have [k0 h1 _] := trunc_pos (divr_ge0 x0 (ltW b0)).
  rewrite (ger0_norm x0) => h; have := le_lt_trans h1 h; rewrite ltr_int => k1.
  have -> : is_int32 (truncq (x / beta)) by have /andP [] := int32_ok k0 k1.
  by eexists.
have nx : 0 <= - x / beta by apply: divr_ge0; rewrite ?oppr_ge0 ltW.
have [k0 h1 _] := trunc_pos nx.
rewrite (ltr0_norm x0) => h; have := le_lt_trans h1 h; rewrite ltr_int => k1.
have -> : is_int32 (truncq (- x / beta)) && is_int32 (truncq (- x / beta) + 1) by exact: int32_ok.
by eexists.
Qed.

(* ---- folding a time difference ---- *)
Lemma fold_down_ok n (beta dt s : rat) : 0 < beta -> dt < n%:R * beta ->
  exists k : nat, [/\ fold_down n beta dt s = Ok (dt - k%:R * beta, s * (-1) ^+ k), dt - k%:R * beta < beta &
    (0 <= dt -> 0 <= dt - k%:R * beta) /\ (dt < beta -> k = 0%N)].
Proof.
move=> b0; elim: n dt s => [|n IH] dt s h /=.
  rewrite mul0r in h; have hb := lt_trans h b0; rewrite leNgt hb /=.
  by exists 0%N; rewrite mul0r subr0 expr0 mulr1; split.
case: (leP beta dt) => hb; last first.
  by exists 0%N; rewrite mul0r subr0 expr0 mulr1; split.
have [|k [e h1 [h2 h3]]] := IH (dt - beta) (s * -1).
  by rewrite ltr_subl_addr; move: h; rewrite mulrSr mulrDl mul1r.
have ek : dt - beta - k%:R * beta = dt - k.+1%:R * beta by rewrite mulrSr; ring.
exists k.+1; rewrite e -ek exprS mulrA; split=> //; split=> // d0.
  by apply: h2; rewrite subr_ge0.
Qed.

Lemma fold_up_ok n (beta dt s : rat) : 0 < beta -> - (n%:R * beta) <= dt ->
  exists k : nat, [/\ fold_up n beta dt s = Ok (dt + k%:R * beta, s * (-1) ^+ k), 0 <= dt + k%:R * beta &
    (dt < beta -> dt + k%:R * beta < beta) /\ (0 <= dt -> k = 0%N)].
Proof.
move=> b0; elim: n dt s => [|n IH] dt s h /=.
  rewrite mul0r oppr0 in h; rewrite ltNge h /=.
  by exists 0%N; rewrite mul0r addr0 expr0 mulr1; split.
case: (ltP dt 0) => hb; last first.
  by exists 0%N; rewrite mul0r addr0 expr0 mulr1; split.
have [|k [e h1 [h2 h3]]] := IH (dt + beta) (s * -1).
  by rewrite -ler_subl_addr; move: h; rewrite mulrSr mulrDl mul1r opprD.
have ek : dt + beta + k%:R * beta = dt + k.+1%:R * beta by rewrite mulrSr; ring.
exists k.+1; rewrite e -ek exprS mulrA; split=> //; split=> // d0.
by apply: h2; rewrite -{2}[beta]add0r ltr_add2r.
Qed.

(* every time difference is folded to its representative, with the parity of the number
   of periods *)
Lemma fold_time_ok (beta dt : rat) : 0 < beta ->
  exists n0 : nat, forall n, (n0 <= n)%N -> exists (k : int) (r : rat),
    [/\ fold_time n beta dt = Ok (r, (-1) ^+ `|k|%N), dt = r + k%:~R * beta & 0 <= r < beta].
Proof.
move=> b0; exists (Num.bound `|dt / beta|) => n nb.
have hb : `|dt| < n%:R * beta.
  rewrite -ltr_pdivr_mulr // -{1}(gtr0_norm b0) -normf_div.
  apply: lt_le_trans (archi_boundP (normr_ge0 _)) _.
  by rewrite ler_nat.
have [|k [e1 h1 [h2 h3]]] := @fold_down_ok n beta dt 1 b0.
  exact: le_lt_trans (ler_norm _) hb.
have [|j [e2 h4 [h5 h6]]] := @fold_up_ok n beta (dt - k%:R * beta) (1 * (-1) ^+ k) b0.
  case: (leP 0 dt) => d0.
    apply: le_trans (h2 d0); rewrite oppr_le0 mulr_ge0 ?ler0n //; exact: ltW.
  rewrite h3 ?mul0r ?subr0; last exact: lt_trans d0 b0.
  by rewrite ler_oppl; apply: ltW; apply: le_lt_trans hb; rewrite (ltr0_norm d0).
exists (k%:Z - j%:Z), (dt - k%:R * beta + j%:R * beta).
rewrite /fold_time e1 /= e2 h4 h5 // rmorphB /= -!pmulrn; split=> //; last by ring.
congr (Ok (_, _)); case: (leP 0 dt) => d0.
  by rewrite (h6 (h2 d0)) subr0 expr0 mul1r mulr1.
have k0 : k = 0%N by apply: h3; exact: lt_trans d0 b0.
by rewrite k0 sub0r abszN expr0 !mul1r.
Qed.

(* ---- interpolation ---- *)
Section Interp.
Variable V : lmodType [ringType of rat].
Implicit Types (g : green V).

(* the segment containing a time *)
Lemma interpolate_ok beta n nf ns coeff f s s2 tau : 0 < beta -> (1 < n)%N ->
  (f < nf)%N -> (s < ns)%N -> (s2 < ns)%N -> 0 <= tau <= beta ->
  exists k : nat, [/\ (k.+1 < n)%N, grid_point beta n k <= tau <= grid_point beta n k.+1 &
    interpolate (green_grid (V := V) beta n nf ns coeff) f s s2 tau =
    let h := tau - grid_point beta n k in
    Ok (h *: (h *: (h *: coeff f s s2 k 3%N + coeff f s s2 k 2%N) + coeff f s s2 k 1%N) + coeff f s s2 k 0%N)].
Proof.
move=> b0 n1 fl sl s2l /andP [t0 tb].
have m0 : 0 < n%:R - 1 :> rat by rewrite subr_gt0 ltr1n.
have d0 : 0 < beta / (n%:R - 1) by rewrite divr_gt0.
have gp k : grid_point beta n k = k%:R * (beta / (n%:R - 1)).
  by rewrite /grid_point mulrCA mulrA.
have q0 : 0 <= tau * (1 / (beta / (n%:R - 1))) by rewrite mul1r divr_ge0 // ltW.
have [] := trunc_pos q0; rewrite /interpolate /=.
case: (truncq _) => // idx _ lo hi; rewrite mul1r ler_pdivl_mulr ?ltr_pdivr_mulr // in lo hi.
have eb : beta = (n.-1)%:R * (beta / (n%:R - 1)).
  by rewrite -{2}(prednK (ltnW n1)) mulrSr addrK mulrCA divff ?mulr1 // gt_eqF // ltr0n; lia.
have le1 : (idx <= n.-1)%N.
  by have := le_trans lo tb; rewrite [X in _ <= X]eb ler_pmul2r // ler_nat.
pose k := if idx == n.-1 then n.-2 else idx.
have -> : (if idx%:Z == n%:Z - 1 then n%:Z - 2%:Z else idx) = k.
  rewrite /k (_ : (idx%:Z == n%:Z - 1) = (idx == n.-1)); last by lia.
  by case: eqP => // _; lia.
have kn : (k.+1 < n)%N by rewrite /k; case: eqP => h; lia.
rewrite fl sl s2l (_ : (0 <= k%:Z) && (k%:Z < n%:Z - 1)); last by lia.
exists k; rewrite !gp; split=> //.
rewrite /k; case: eqP => [e|_]; last first.
  by rewrite lo /= ltW //; move: hi; rewrite -PoszD addn1 -pmulrn.
apply/andP; split.
  by apply: le_trans lo; rewrite e ler_pmul2r // -pmulrn ler_nat; lia.
by rewrite (_ : n.-2.+1 = n.-1) -?eb //; lia.
Qed.

(* value for different times: the curve at the folded difference *)
Lemma green_ops_ok beta n nf ns coeff (c cd : gop) : 0 < beta -> (1 < n)%N ->
  (g_flavor c < nf)%N -> (g_site c < ns)%N -> (g_site cd < ns)%N -> g_time c != g_time cd ->
  exists n0 : nat, forall m, (n0 <= m)%N -> exists (k : int) (r : rat) (v : V),
    [/\ g_time c - g_time cd = r + k%:~R * beta, 0 <= r < beta,
        interpolate (green_grid beta n nf ns coeff) (g_flavor c) (g_site c) (g_site cd) r = Ok v &
        green_ops m (green_grid beta n nf ns coeff) c cd = Ok ((-1) ^+ `|k|%N *: v)].
Proof.
move=> b0 n1 fl sl s2l ne; have [n0 h] := fold_time_ok (g_time c - g_time cd) b0.
exists n0 => m nm; have [k [r [e1 e2 /andP [r0 r1]]]] := h m nm.
have rr : 0 <= r <= beta by rewrite r0 ltW.
have [j [jn _ e3]] := interpolate_ok coeff b0 n1 fl sl s2l rr.
eexists k, r, _; split=> //; first by rewrite r0.
  exact: e3.
by rewrite /green_ops subr_eq0 (negbTE ne) e1 /= e3.
Qed.

(* the representative is unique *)
Lemma fold_unique (beta : rat) (k k' : int) (r r' : rat) : 0 < beta -> r + k%:~R * beta = r' + k'%:~R * beta ->
  0 <= r < beta -> 0 <= r' < beta -> k = k' /\ r = r'.
Proof.
move=> b0 e /andP [r0 r1] /andP [r0' r1'].
have e1 : r - r' = (k' - k)%:~R * beta.
  have -> : r = r' + k'%:~R * beta - k%:~R * beta by rewrite -e addrK.
  by rewrite rmorphB /=; ring.
have lt1 : (k' - k)%:~R * beta < 1%:~R * beta.
  by rewrite -e1 mul1r ltr_subl_addr; apply: lt_le_trans r1 _; rewrite ler_addl.
have lt2 : (-1)%:~R * beta < (k' - k)%:~R * beta.
  by rewrite -e1 mulN1r ltr_oppl opprB ltr_subl_addr; apply: lt_le_trans r1' _; rewrite ler_addl.
rewrite !ltr_pmul2r // !ltr_int in lt1 lt2.
have ek : k = k' by lia.
by split=> //; move: e; rewrite ek => /addIr.
Qed.

Lemma sign_next (k : int) : (-1) ^+ `|(k + 1)%R|%N = - (-1) ^+ `|k|%N :> rat.
Proof.
rewrite -signr_odd -[in RHS]signr_odd; have -> : odd `|(k + 1)%R|%N = ~~ odd `|k|%N by lia.
by case: odd; rewrite ?expr0 ?expr1 ?opprK.
Qed.

(* antiperiodicity *)
Lemma green_ops_shift beta n nf ns coeff (c cd : gop) : 0 < beta -> (1 < n)%N ->
  (g_flavor c < nf)%N -> (g_site c < ns)%N -> (g_site cd < ns)%N ->
  g_time c != g_time cd -> g_time c + beta != g_time cd ->
  let g := green_grid beta n nf ns coeff in
  exists n0 : nat, forall m, (n0 <= m)%N -> exists v : V,
    green_ops m g c cd = Ok v /\
    green_ops m g (Gop (g_flavor c) (g_site c) (g_time c + beta) (g_small c)) cd = Ok (- v).
Proof.
move=> b0 n1 fl sl s2l ne ne' g.
have [m1 h1] := @green_ops_ok beta n nf ns coeff c cd b0 n1 fl sl s2l ne.
have [m2 h2] := @green_ops_ok beta n nf ns coeff (Gop (g_flavor c) (g_site c) (g_time c + beta) (g_small c)) cd b0 n1 fl sl s2l ne'.
exists (maxn m1 m2) => m; rewrite geq_max => /andP [mm1 mm2].
have [k [r [v [e1 r1 i1 g1]]]] := h1 m mm1.
have [k' [r' [v' [e2 r2 i2 g2]]]] := h2 m mm2.
have [ek er] : k + 1 = k' /\ r = r'.
  apply: (fold_unique b0 _ r1 r2); rewrite -e2 /= addrAC e1 rmorphD /= mulrDl mul1r; ring.
rewrite -er /= i1 in i2; case: i2 => ev.
exists ((-1) ^+ `|k|%N *: v); split=> //.
by rewrite g2 -ek sign_next -ev scaleNr.
Qed.

(* equal times *)
Lemma green_ops_equal beta n nf ns coeff (c cd : gop) m : 0 < beta -> (1 < n)%N ->
  (g_flavor c < nf)%N -> (g_site c < ns)%N -> (g_site cd < ns)%N -> g_time c = g_time cd ->
  let g := green_grid beta n nf ns coeff in
  exists v : V, interpolate g (g_flavor c) (g_site c) (g_site cd)
      (if g_small cd < g_small c then 0 else beta) = Ok v /\
    green_ops m g c cd = Ok (if g_small cd < g_small c then v else - v).
Proof.
move=> b0 n1 fl sl s2l e g; rewrite /green_ops e subrr eqxx.
have i0 : (0 : rat) <= 0 <= beta by rewrite (ltW b0) lexx.
have ib : 0 <= beta <= beta by rewrite lexx (ltW b0).
case: ifP => _.
  by have [j [_ _ e1]] := interpolate_ok coeff b0 n1 fl sl s2l i0; rewrite e1; eexists.
by have [j [_ _ e1]] := interpolate_ok coeff b0 n1 fl sl s2l ib; rewrite e1; eexists.
Qed.

Lemma eps_gt0 : 0 < 1 / 10%:R ^+ 8 :> rat.
Proof. by apply: divr_gt0; [exact: ltr01 | apply: exprn_gt0; rewrite ltr0n]. Qed.

(* operator()(delta_t, ...) *)
Lemma green_dt_shift beta n nf ns coeff dt f s s2 : 1 / 10%:R ^+ 8 <= beta -> (1 < n)%N ->
  (f < nf)%N -> (s < ns)%N -> (s2 < ns)%N ->
  let g := green_grid beta n nf ns coeff in
  exists n0 : nat, forall m, (n0 <= m)%N -> exists v : V,
    green_dt m g dt f s s2 = Ok v /\ green_dt m g (dt + beta) f s s2 = Ok (- v).
Proof.
rewrite /green_dt; move: (1 / 10%:R ^+ 8) eps_gt0 => eps e0 be n1 fl sl s2l.
have b0 : 0 < beta := lt_le_trans e0 be.
have [m1 h1] := fold_time_ok dt b0; have [m2 h2] := fold_time_ok (dt + beta) b0.
exists (maxn m1 m2) => m; rewrite geq_max => /andP [mm1 mm2].
have [k [r [g1 e1 r1]]] := h1 m mm1; have [k' [r' [g2 e2 r2]]] := h2 m mm2.
have [ek er] : k + 1 = k' /\ r = r'.
  apply: (fold_unique b0 _ r1 r2); rewrite -e2 e1 rmorphD /= mulrDl mul1r; ring.
rewrite g1 g2 -er -ek /= sign_next.
set t := if r == 0 then _ else _.
have tb : 0 <= t <= beta.
  move: r1 => /andP [r0 rb]; rewrite /t; case: eqP => [->|_]; rewrite ?add0r ?(ltW e0) ?be //.
  by rewrite r0 ltW.
have [j [_ _ e3]] := interpolate_ok coeff b0 n1 fl sl s2l tb.
by rewrite e3 /=; eexists; split; [reflexivity | rewrite scaleNr].
Qed.

End Interp.
