(* Shift moves: a vertex is replaced by a copy at another time. *)
From mathcomp Require Import all_ssreflect ssralg ssrnum ssrint matrix zify.
From Verif Require Import Outcome MatLib MatSpec SubModel SubSpec SubConf SubProofs Prop_Sub UMatModel UMatProofs ManModel ManSpec ManCount ManProofs ManGlobal.

Set Implicit Arguments.
Unset Strict Implicit.
Unset Printing Implicit Defensive.

Import Order.TTheory GRing.Theory Num.Theory.
Local Open Scope ring_scope.

Section Shift.
Variables (F : numFieldType) (Tm : eqType) (ani : F).
Variable G0 : sop Tm -> sop Tm -> F.
Variable U : seq (vdef F).
Variables (x0 : sop Tm) (nf : nat) (tm0 : Tm) (junk : fmat F).
Variables (kmax : nat).
Variable R : Type.
Variable rval : R -> F.
Variable ridx : nat -> R -> nat.
Variable rshift : Tm -> R -> Tm.
Notation vtx := (vertex Tm).
Notation d0 := (vertex0 tm0).
Notation wt := (weight G0 U x0 nf).
Notation reach := (reach ani G0 U x0 nf tm0 junk).
Notation naf v := (vd_naf (sp_def U v)).
Hypothesis tok : sp_types_ok U ani nf.
Hypothesis rok : forall N r, (0 < N)%N -> (ridx N r < N)%N.
Hypothesis rpos : forall r, 0 <= rval r.

(* the request of one shift *)
Definition move (p q a : nat) : request := [:: (p, None); (q, Some a)].

Lemma valid2 (vs : seq vtx) p q a : (p < size vs)%N -> (q < size vs)%N -> p != q ->
  (a < naf (nth d0 vs q))%N -> valid_req U d0 vs (move p q a).
Proof. by move=> pl ql pq al; rewrite /valid_req /= inE pq pl ql al. Qed.

Lemma simple2 (vs0 vs : seq vtx) p q a :
  sp_state (nth d0 vs0 p) = sp_state (nth d0 vs p) -> sp_state (nth d0 vs0 q) = sp_state (nth d0 vs q) ->
  simple U d0 nf vs0 vs (move p q a).
Proof.
move=> e1 e2 fl fll; rewrite /sp_changes /= cats0 e1 e2; apply/orP; left.
by rewrite all_filter all_cat !all_map; apply/andP; split; apply/allP => r _ /=; rewrite eqxx implybT.
Qed.

Lemma move_nth (vs : seq vtx) p q a i : (i < size vs)%N -> p != q ->
  nth d0 (sp_flip d0 vs (move p q a)) i =
  if i == p then sp_set (nth d0 vs p) None else if i == q then sp_set (nth d0 vs q) (Some a) else nth d0 vs i.
Proof.
move=> il pq; rewrite nth_sp_flip //= !inE.
case: (i =P p) => [->|ip] /=; first by rewrite eqxx.
case: (i =P q) => [->|iq] /=; last by [].
by rewrite (negbTE pq) eqxx.
Qed.

(* the state of a session of shifts *)
Record shifts (s : sub F Tm) (ps : seq nat) (q : nat) : Prop := Shifts {
  h_re : reach s; h_tr : su_trying s; h_un : uniq ps; h_lt : all (fun p => p < q)%N ps;
  h_sz : (q + size ps <= size (su_v s))%N;
  h_old : forall p, p \in ps -> nth d0 (su_v s) p = nth d0 (su_v0 s) p;
  h_new : forall i, (i < size ps)%N -> let p := nth d0 (su_v s) (nth 0%N ps i) in let v := nth d0 (su_v s) (q + i) in
     [/\ v = nth d0 (su_v0 s) (q + i), v_non v, ~~ v_non p, v_type v = v_type p & (v_af p < naf p)%N] }.

Lemma shift_step s p ps q r rs w : shifts s (p :: ps) q ->
  let v := nth d0 (su_v s) p in
  let vs' := sp_flip d0 (su_v s) (move p q (v_af v)) in
  let x := wt vs' / wt (su_v s) in
  exists2 s2, shift_loop ani U tm0 junk rval (p :: ps) q s w (r :: rs) =
      shift_loop ani U tm0 junk rval ps q.+1 s2 (if rval r < `|x| then w * x else w) rs &
    post ani G0 U x0 nf tm0 junk s s2 (if rval r < `|x| then vs' else su_v s) /\ shifts s2 ps q.+1.
Proof.
move=> h v vs' x; have [re tr up lt sz ho hn] := h.
have pq : p != q by move: lt => /= /andP[pq _]; rewrite neq_ltn pq.
have [eq nq np tq aq] := hn 0%N isT; rewrite /= addn0 in eq nq np tq aq.
have ql : (q < size (su_v s))%N by move: sz; rewrite /=; clear; lia.
have pl : (p < size (su_v s))%N by move: lt ql => /= /andP[pq' _]; move: pq'; clear; lia.
have val : valid_req U d0 (su_v s) (move p q (v_af v)).
  by apply: valid2 => //; rewrite /sp_def tq.
have sim : simple U d0 nf (su_v0 s) (su_v s) (move p q (v_af v)).
  by apply: simple2; rewrite ?eq // ho // mem_head.
have [s1 [d [f [u [e e1 er dec]]]]] := flip_step tok rpos re tr val sim.
have [//|s2 e2 po] := dec `|d * f * u| (d * f * u) (r :: rs) erefl.
rewrite -/vs' -/x in er; rewrite er in e2 po.
exists s2.
  cbn [shift_loop]; rewrite -/v -/(move p q (v_af v)) e obOk er obOk.
  by move: e2; rewrite /decide obOk; case: ifP => _; move=> /obI[s3 ->] [<-].
split=> //; move: po; rewrite -/vs'.
have keep vs2 : size vs2 = size (su_v s) -> (forall i, i != p -> i != q -> (i < size (su_v s))%N -> nth d0 vs2 i = nth d0 (su_v s) i) ->
   post ani G0 U x0 nf tm0 junk s s2 vs2 -> shifts s2 ps q.+1.
  move=> z2 same [re2 tr2 v2 v02].
  have ni p' : p' \in ps -> [/\ p' != p, p' != q & (p' < q)%N].
    move=> pi; have pl' : (p' < q)%N by have := allP lt p'; rewrite in_cons pi orbT => /(_ isT).
    by split=> //; [apply: contraTneq up => <-; rewrite /= pi | rewrite neq_ltn pl'].
  split=> //.
  - by case/andP: up.
  - by apply/allP => p' pi; have [_ _ /ltnW] := ni _ pi.
  - by rewrite v2 z2 addSnnS.
  - move=> p' pi; have [a b c] := ni _ pi.
    rewrite v2 v02 same ?ho ?in_cons ?pi ?orbT //; exact: ltn_trans c ql.
  move=> i il; have := hn i.+1 il; rewrite /= addnS -addSn v2 v02.
  have [a b c] := ni _ (mem_nth 0%N il).
  rewrite !same //; try exact: ltn_trans c ql.
  - by move: lt => /= /andP[pq' _]; move: pq'; clear; lia.
  - by clear; lia.
  by move: sz il; rewrite /=; clear; lia.
case: ifP => _ po; last by apply: keep po.
apply: keep po; first by rewrite size_sp_flip.
by move=> i ip iq il; rewrite /vs' move_nth // (negbTE ip) (negbTE iq).
Qed.

Notation loop := (shift_loop ani U tm0 junk rval).

Lemma shift_loop_ok ps q s w rs : shifts s ps q ->
  loop ps q s w rs = Diverge \/
  exists s2 rs2, [/\ loop ps q s w rs = Ok (w * (wt (su_v s2) / wt (su_v s)), s2, rs2), reach s2 &
    [seq v_type v | v <- su_v s2] = [seq v_type v | v <- su_v s]].
Proof.
elim: ps q s w rs => [|p ps ih] q s w rs h.
  by right; exists s, rs; rewrite divff ?mulr1 ?(reach_w tok (h_re h)) //; split=> //; exact: (h_re h).
have nz := reach_w tok (h_re h).
case: rs => [|r rs].
  left; have [re tr up lt sz ho hn] := h.
  have pq : p != q by move: lt => /= /andP[pq _]; rewrite neq_ltn pq.
  have [eq nq np tq aq] := hn 0%N isT; rewrite /= addn0 in eq nq np tq aq.
  have ql : (q < size (su_v s))%N by move: sz; rewrite /=; clear; lia.
  have pl : (p < size (su_v s))%N by move: lt ql => /= /andP[pq' _]; move: pq'; clear; lia.
  have val : valid_req U d0 (su_v s) (move p q (v_af (nth d0 (su_v s) p))).
    by apply: valid2 => //; rewrite /sp_def tq.
  have sim : simple U d0 nf (su_v0 s) (su_v s) (move p q (v_af (nth d0 (su_v s) p))).
    by apply: simple2; rewrite ?eq // ho // mem_head.
  have [s1 [d [f [u [e e1 er dec]]]]] := flip_step tok rpos re tr val sim.
  by cbn [shift_loop]; rewrite -/(move p q (v_af (nth d0 (su_v s) p))) e.
have [s2 -> [po h2]] := shift_step r rs w h.
set w1 := (if _ then _ else _).
have [->|[s3 [rs2 [-> re3 ty]]]] := ih q.+1 s2 w1 rs h2; first by left.
right; exists s3, rs2; rewrite /w1; split=> //.
  congr (Ok (_, _, _)); have nz2 := reach_w tok (p_re po).
  rewrite (p_v po) in nz2 *; move: nz2; case: ifP => // _ nz2.
  by rewrite -mulrA; congr (_ * _); rewrite mulrC mulrA mulfVK.
rewrite ty (p_v po); case: ifP => // _.
apply: (@eq_from_nth _ 0%N); first by rewrite !size_map size_iota.
move=> i; rewrite size_map size_sp_flip => il; rewrite !(nth_map d0) ?size_sp_flip //.
have pq : p != q by move: (h_lt h) => /= /andP[pq _]; rewrite neq_ltn pq.
by rewrite move_nth //; case: eqP => [->|_] //; case: eqP => [->|].
Qed.

Lemma shift_copies_ok vs ps rs : shift_copies tm0 rshift vs ps rs = Diverge \/
  exists cp rs2, [/\ shift_copies tm0 rshift vs ps rs = Ok (cp, rs2), size cp = size ps &
    [seq (v_type v, v_af v) | v <- cp] = [seq (v_type (nth d0 vs p), v_af (nth d0 vs p)) | p <- ps]].
Proof.
elim: ps rs => [|p ps ih] rs /=; first by right; exists [::], rs.
case: rs => [|r rs] /=; first by left.
have [->|[cp [rs2 [-> sz e]]]] := ih rs; first by left.
by right; eexists _, rs2; split; [reflexivity | rewrite /= sz | rewrite /= e].
Qed.

Hypothesis cov : forall v : vtx, (v_type v < size U)%N -> sp_covers U nf v.

Lemma do_shift_ok s rs : reach s -> ~~ su_trying s ->
  let res := do_shift ani G0 U x0 tm0 junk kmax rval ridx rshift s rs in
  res = Diverge \/
  exists w2 s2 rs2, [/\ res = Ok (w2, s2, rs2), reach s2, ~~ su_trying s2,
    w2 = wt (su_v s2) / wt (su_v s) & size (su_v s2) = size (su_v s)].
Proof.
move=> re tr res; have hi := reach_inv tok re.
suff h : res = Diverge \/ exists w2 s2 rs2, [/\ res = Ok (w2, s2, rs2), reach s2, ~~ su_trying s2 & w2 = wt (su_v s2) / wt (su_v s)].
  case: h => [|[w2 [s2 [rs2 [e r2 t2 ew]]]]]; [by left | right; exists w2, s2, rs2; split=> //].
  by have [] := do_shift_size rok e (i_ready hi tr).
rewrite {}/res /do_shift.
have [->|[ps [rs1 [-> up aN]]]] := pickup_okay rok rs (geq_minl (size (su_v s)) kmax); first by left.
rewrite obOk.
have [->|[cp [rs2 [-> sz ec]]]] := shift_copies_ok (su_v s) ps rs1; first by left.
rewrite obOk.
have fr := idle_fresh tok re tr.
have tcp : all (fun v => v_type v < size U)%N cp.
  rewrite (_ : all _ cp = all (fun x => x.1 < size U)%N [seq (v_type v, v_af v) | v <- cp]); last by rewrite all_map.
  rewrite ec all_map; apply/allP => p pi /=.
  by case/andP: (all_nthP d0 fr p (allP aN _ pi)).
have [s1 e1 [i1 t1 v1 v01]] := init_ok tok hi tr tcp.
have re1 : reach s1 by apply: R_init re tr tcp e1.
rewrite e1 obOk.
have ncp i : (i < size ps)%N -> (nth d0 (number_vertices (su_id s) cp) i).1.1.1.1 = v_type (nth d0 (su_v s) (nth 0%N ps i)).
  move=> il; have := congr1 (nth (0%N, 0%N) ^~ i) (number_core (su_id s) cp).
  rewrite ec (nth_map d0) ?number_size ?sz // (nth_map 0%N) //= => -[e _].
  exact: e.
have sh : shifts s1 ps (size (su_v s)).
  split=> //.
  - by rewrite v1 size_cat number_size sz.
  - by move=> p _; rewrite v01.
  move=> i il; have lt1 : (size (su_v s) + i < size (su_v s))%N = false by rewrite ltnNge leq_addr.
  have pN := allP aN _ (mem_nth 0%N il); rewrite v01 v1 !nth_cat lt1 addKn pN.
  split=> //.
  - by apply: (allP (number_non_raw (su_id s) cp)); apply: mem_nth; rewrite number_size sz.
  - by apply: (allP (i_ready hi tr)); apply: mem_nth.
  - exact: ncp.
  by case/andP: (all_nthP d0 fr _ pN).
have [->|[s2 [rs3 [-> re2 ty]]]] := shift_loop_ok 1 rs2 sh; first by left.
rewrite obOk; right.
have hi2 := reach_inv tok re2.
have cv : all (fun v => v_non v ==> sp_covers U nf v) (su_v s2).
  apply/allP => v vi; apply/implyP => _; apply: cov.
  by have /andP[] := allP (i_vo hi2) _ vi.
have [s3 e3 [i3 t3 v3 _]] := finalize_ok tok tm0 hi2 cv.
exists (1 * (wt (su_v s2) / wt (su_v s1))), s3, rs3; rewrite e3; split=> //.
  exact: R_finalize re2 e3.
rewrite mul1r v3 -wt_ints; congr (_ / _).
rewrite (wt_ints _ _ _ _ (su_v s1)) v1 filter_cat (all_filterP (i_ready hi tr)) (_ : [seq v <- number_vertices _ _ | _] = [::]) ?cats0 //.
by apply/eqP; rewrite -(negbK (_ == _)) -has_filter -all_predC; apply: sub_all (number_non_raw (su_id s) cp) => v /= ->.
Qed.

(* detailed balance of a shift *)
Lemma balance_shift us (vs : seq vtx) p q a : (p < size vs)%N -> (q < size vs)%N ->
  ~~ v_non (nth d0 vs p) -> v_non (nth d0 vs q) -> v_type (nth d0 vs q) = v_type (nth d0 vs p) -> wt vs != 0 ->
  let vs' := sp_flip d0 vs (move p q a) in
  sp_target G0 U x0 nf us vs * Num.min 1 `|wt vs' / wt vs| =
  sp_target G0 U x0 nf us vs' * Num.min 1 `|wt vs / wt vs'|.
Proof.
move=> pl ql np nq tq w0 vs'.
have pq : p != q by apply: contraTneq nq => <-.
have es : vs' = set_nth d0 (set_nth d0 vs p (sp_set (nth d0 vs p) None)) q (sp_set (nth d0 vs q) (Some a)).
  apply: (@eq_from_nth _ d0).
    by rewrite size_sp_flip !size_set_nth (maxn_idPr pl) (maxn_idPr ql).
  move=> i; rewrite size_sp_flip => il; rewrite move_nth // !nth_set_nth /= !nth_set_nth /=.
  case: (i =P p) => [->|_]; first by rewrite (negbTE pq).
  by case: (i =P q).
set ws := set_nth d0 vs p (sp_set (nth d0 vs p) None) in es.
have sws : size ws = size vs by rewrite size_set_nth (maxn_idPr pl).
have eqw : nth d0 ws q = nth d0 vs q by rewrite nth_set_nth /= eq_sym (negbTE pq).
have eo : sp_order vs' = sp_order vs.
  rewrite /sp_order !size_filter es.
  have c1 := count_set tm0 (sp_set (nth d0 vs p) None) pl; rewrite -/ws np /= addn0 in c1.
  have ql' : (q < size ws)%N by rewrite sws.
  have c2 := count_set tm0 (sp_set (nth d0 vs q) (Some a)) ql'; rewrite eqw nq /= addn0 in c2.
  by rewrite c2 c1.
pose g (v : vtx) : F := ((naf v)%:R)^-1.
have ep : \prod_(v <- vs' | ~~ v_non v) g v = \prod_(v <- vs | ~~ v_non v) g v.
  have ql' : (q < size ws)%N by rewrite sws.
  rewrite es (prod_set g ql') ?eqw //.
  have ev : set_nth d0 ws p (nth d0 vs p) = vs.
    rewrite /ws set_set_nth eqxx; apply: (@eq_from_nth _ d0).
      by rewrite size_set_nth (maxn_idPr pl).
    by move=> i il; rewrite nth_set_nth /=; case: eqP => [->|].
  have eg : g (sp_set (nth d0 vs q) (Some a)) = g (nth d0 vs p).
    by rewrite /g /sp_def (_ : v_type (sp_set (nth d0 vs q) (Some a)) = v_type (nth d0 vs q)) // tq.
  have pl' : (p < size ws)%N by rewrite sws.
  have nw : v_non (nth d0 ws p) by rewrite nth_set_nth /= eqxx.
  by rewrite eg -(prod_set g pl' nw np) ev.
rewrite /sp_target eo ep.
case: (altP (wt vs' =P 0)) => [->|w1].
  by rewrite mul0r normr0 !mul0r /Order.min ltr10 mulr0.
rewrite (_ : `|wt vs / wt vs'| = `|wt vs' / wt vs|^-1); last by rewrite -normfV invf_div.
apply: metropolis; first by rewrite normr_gt0 mulf_neq0 // invr_eq0.
have an : `|wt vs| != 0 by rewrite normr_eq0.
by rewrite normf_div mulrC mulrA [_ * (_ * _)]mulrA mulfVK // mulrA.
Qed.

End Shift.
