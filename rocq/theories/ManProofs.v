(* The Monte Carlo moves on reachable objects: they fail in no state, and the returned ratio
   and the counters follow the weight. *)
From mathcomp Require Import all_ssreflect ssralg ssrnum ssrint matrix zify.
From Verif Require Import Outcome MatLib MatSpec SubModel SubSpec SubConf SubProofs Prop_Sub UMatModel UMatProofs ManModel ManSpec ManCount.

Set Implicit Arguments.
Unset Strict Implicit.
Unset Printing Implicit Defensive.

Import Order.TTheory GRing.Theory Num.Theory.
Local Open Scope ring_scope.

Section Man.
Variables (F : numFieldType) (Tm : eqType) (ani : F).
Variable G0 : sop Tm -> sop Tm -> F.
Variable U : seq (vdef F).
Variables (x0 : sop Tm) (nf : nat) (tm0 : Tm) (junk : fmat F).
Variables (beta us : F) (kmax max_order : nat).
Variable R : Type.
Variable rval : R -> F.
Variable rhalf : R -> bool.
Variable ridx : nat -> R -> nat.
Variable rtime : R -> Tm.
Notation vtx := (vertex Tm).
Notation d0 := (vertex0 tm0).
Notation wt := (weight G0 U x0 nf).
Notation reach := (reach ani G0 U x0 nf tm0 junk).
Notation naf v := (vd_naf (sp_def U v)).
Hypothesis tok : sp_types_ok U ani nf.
Hypothesis rok : forall N r, (0 < N)%N -> (ridx N r < N)%N.
Hypothesis rpos : forall r, 0 <= rval r.
Hypothesis bpos : 0 < beta.
Hypothesis upos : 0 < us.

(* ---- one flip ---- *)

Record post (s s2 : sub F Tm) (vs : seq vtx) : Prop := Post {
  p_re : reach s2; p_tr : su_trying s2; p_v : su_v s2 = vs; p_v0 : su_v0 s2 = su_v0 s }.

(* the common end of all steps: the ratio was computed, the decision is made *)
Definition decide (s1 : sub F Tm) (req : request) (w prob : F) (rs : seq R) : outcome (F * sub F Tm * seq R) :=
  obind (draw rs) (fun x =>
    if rval x.1 < `|prob| then
      obind (perform_spin_flip junk tm0 s1 req) (fun s2 => Ok (w, s2, x.2))
    else
      obind (reject_spin_flip s1) (fun s2 => Ok (1, s2, x.2))).

(* the result of a step with threshold A *)
Definition decided (s : sub F Tm) (req : request) (A : F) (rs : seq R) (res : outcome (F * sub F Tm * seq R)) : Prop :=
  let vs' := sp_flip d0 (su_v s) req in
  if rs is r :: rs' then
    exists2 s2, res = Ok (if rval r < A then wt vs' / wt (su_v s) else 1, s2, rs') &
      post s s2 (if rval r < A then vs' else su_v s)
  else res = Diverge.

Lemma reach_w s : reach s -> wt (su_v s) != 0.
Proof. by move=> re; have [] := C57_running_sign tok re. Qed.

Lemma flip_step s req : reach s -> su_trying s -> valid_req U d0 (su_v s) req ->
  simple U d0 nf (su_v0 s) (su_v s) req ->
  exists s1 d f u, [/\ try_spin_flip ani U s tm0 req = Ok (s1, (d, f, u)),
    su_v s1 = su_v s, d * f * u = wt (sp_flip d0 (su_v s) req) / wt (su_v s) &
    forall A prob rs, A = `|prob| -> (prob != 0 -> d * f * u != 0) ->
      decided s req A rs (decide s1 req (d * f * u) prob rs)].
Proof.
move=> re tr val sim.
have [nz [s1 [d [f [u [e er]]]]]] := C26_spin_flip_ratio_partial tok re tr val sim.
exists s1, d, f, u; split=> //; first by have [] := try_raw e.
move=> A prob rs -> pz; rewrite /decided /decide; case: rs => [|r rs] //=.
case: ifP => lt.
  have nz' : d * f * u != 0.
    by apply: pz; rewrite -normr_gt0; apply: le_lt_trans (rpos r) lt.
  have [s2 e2 [r2 t2 v2 v02]] := C26_accept_partial tok re tr val sim e nz'.
  by rewrite e2 /=; exists s2; rewrite ?er.
have [s2 e2 [r2 [t2 v2 v02 _] _ _]] := C28_reject_exact tok re tr val sim e.
by rewrite e2 /=; exists s2 => //; split=> //; rewrite t2.
Qed.

(* ---- single requests ---- *)

Lemma valid1 (vs : seq vtx) p st : (p < size vs)%N ->
  (if st is Some a then (a < naf (nth d0 vs p))%N else true) -> valid_req U d0 vs [:: (p, st)].
Proof. by move=> pl h; rewrite /valid_req /= pl andbT. Qed.

Lemma simple1 (vs0 vs : seq vtx) p st :
  let v := nth d0 vs p in let v0 := nth d0 vs0 p in
  sp_state v0 = sp_state v \/ sp_state v0 = st -> simple U d0 nf vs0 vs [:: (p, st)].
Proof.
move=> v v0 h fl fll; rewrite /sp_changes /= cats0 -/v -/v0.
case: h => ->; [apply/orP; left | apply/orP; right]; rewrite all_filter all_map;
  apply/allP => r _ /=; by rewrite ?eqxx implybT.
Qed.

Lemma flip1_nth (vs : seq vtx) p st i : (i < size vs)%N ->
  nth d0 (sp_flip d0 vs [:: (p, st)]) i = if i == p then sp_set (nth d0 vs p) st else nth d0 vs i.
Proof.
move=> il; rewrite nth_sp_flip //= inE; case: (i =P p) => // ->.
by rewrite eqxx.
Qed.

(* ---- counting candidates ---- *)

Definition known (vs : seq vtx) : bool := all (fun v => v_type v < size U)%N vs.

Lemma candidateE (v : vtx) : (v_type v < size U)%N -> candidate U v = ~~ v_non v.
Proof. by move=> h; rewrite /candidate /sv_flag nth_nseq h andbT. Qed.

Lemma corrE vs : known vs -> corr_insertion U beta vs = beta * (size U)%:R / (sp_order vs).+1%:R.
Proof.
move=> kn; rewrite /corr_insertion /sv_size -mulrSr; congr (_ / _%:R).
suff h n : foldl (fun n v => if candidate U v then n.+1 else n) n vs = (n + sp_order vs)%N by rewrite h.
rewrite /sp_order size_filter.
elim: vs kn n => [|v vs ih] /= ; first by move=> _ n; rewrite addn0.
by move=> /andP[tv kn] n; rewrite ih // candidateE //; case: v_non; rewrite /= ?add0n ?add1n ?addSnnS.
Qed.

Lemma posE vs : known vs ->
  foldl (fun l iv => if candidate U (nth d0 vs iv) then rcons l iv else l) [::] (iota 0 (size vs)) = sp_int_positions d0 vs.
Proof.
move=> kn; rewrite /sp_int_positions.
suff h l acc : all (fun i => i < size vs)%N l ->
  foldl (fun l iv => if candidate U (nth d0 vs iv) then rcons l iv else l) acc l = acc ++ [seq i <- l | ~~ v_non (nth d0 vs i)].
  by rewrite h //; apply/allP => i; rewrite mem_iota.
elim: l acc => [|i l ih] acc /=; first by rewrite cats0.
move=> /andP[il al]; rewrite ih // candidateE; last by apply: (allP kn); apply: mem_nth.
by case: v_non => //=; rewrite cat_rcons.
Qed.

Lemma size_positions (vs : seq vtx) : size (sp_int_positions d0 vs) = sp_order vs.
Proof.
rewrite /sp_int_positions /sp_order !size_filter.
have e : vs = [seq nth d0 vs i | i <- iota 0 (size vs)] by rewrite map_nth_iota0 // take_size.
by rewrite [RHS](congr1 (count _) e) count_map.
Qed.

Lemma take_swap (l : seq nat) k : (k < size l)%N -> take 1 (swap0 l k) = [:: nth 0%N l k].
Proof.
rewrite /swap0; case: l => // x l kl; case: k kl => [|k] kl /=; first by rewrite take0.
by rewrite take0.
Qed.

(* ---- the session of insertions and removals ---- *)

Definition core (v : vtx) := (v_type v, v_af v, v_time v, v_uid v).

Definition waiting (s : sub F Tm) (pend : seq (nat * nat)) : Prop :=
  uniq [seq x.1 | x <- pend & x.2 == 1%N] /\
  forall b n, (b, n) \in pend ->
    n = 0%N \/ [/\ n = 1%N, (b < size (su_v s))%N, v_non (nth d0 (su_v s) b) & v_non (nth d0 (su_v0 s) b)].

Record session (s : sub F Tm) (pend : seq (nat * nat)) : Prop := Session {
  e_re : reach s; e_tr : su_trying s;
  e_core : map core (su_v s) = map core (su_v0 s);
  e_ok : all (fun v => (v_type v < size U)%N && (v_af v < naf v)%N) (su_v s);
  e_wait : waiting s pend }.

Lemma e_known s pend : session s pend -> known (su_v s).
Proof. by move=> h; apply/allP => v vi; case/andP: (allP (e_ok h) _ vi). Qed.

Lemma e_size s pend : session s pend -> size (su_v0 s) = size (su_v s).
Proof. by move=> h; have := congr1 size (e_core h); rewrite !size_map. Qed.

Lemma e_nth s pend p : session s pend -> (p < size (su_v s))%N ->
  v_af (nth d0 (su_v0 s) p) = v_af (nth d0 (su_v s) p).
Proof.
move=> h pl; have := congr1 (nth (core d0) ^~ p) (e_core h).
by rewrite !(nth_map d0) ?(e_size h) // /core => -[_ -> _ _].
Qed.

Lemma core_flip (vs : seq vtx) p st : (p < size vs)%N ->
  (if st is Some a then a = v_af (nth d0 vs p) else True) ->
  map core (sp_flip d0 vs [:: (p, st)]) = map core vs.
Proof.
move=> pl h; apply: (@eq_from_nth _ (core d0)); first by rewrite !size_map size_iota.
move=> i; rewrite size_map size_sp_flip => il; rewrite !(nth_map d0) ?size_sp_flip // flip1_nth //.
case: eqP => // ->; rewrite /core; case: st h => [a|] //= ->; by case: (nth d0 vs p) => [[[[? ?] ?] ?] ?].
Qed.

Lemma okv_flip (vs : seq vtx) p st : (p < size vs)%N ->
  (if st is Some a then a = v_af (nth d0 vs p) else True) ->
  all (fun v => (v_type v < size U)%N && (v_af v < naf v)%N) vs ->
  all (fun v => (v_type v < size U)%N && (v_af v < naf v)%N) (sp_flip d0 vs [:: (p, st)]).
Proof.
move=> pl h ok; apply/(all_nthP d0) => i; rewrite size_sp_flip => il.
rewrite flip1_nth //; have q := all_nthP d0 ok.
case: eqP => _; last exact: q.
have := q _ pl; case: st h => [a|] //= ->; by case: (nth d0 vs p) => [[[[? ?] ?] ?] ?].
Qed.

Lemma session_sub s pend pend' : session s pend -> waiting s pend' -> session s pend'.
Proof. by case=> *; split. Qed.

Lemma waiting_behead s x pend : waiting s (x :: pend) -> waiting s pend.
Proof.
move=> [u h]; split.
  by move: u => /=; case: ifP => //= _ /andP[].
by move=> b n bi; apply: h; rewrite in_cons bi orbT.
Qed.

Lemma session_keep s pend s2 : session s pend -> post s s2 (su_v s) -> session s2 pend.
Proof. by move=> [a b c d e] [r t v v0]; split; rewrite ?v ?v0 //; move: e; rewrite /waiting v v0. Qed.

(* an insertion *)
Lemma insertion_ok s b pend rs : session s ((b, 1%N) :: pend) ->
  let a := v_af (nth d0 (su_v s) b) in
  let vs' := sp_flip d0 (su_v s) [:: (b, Some a)] in
  decided s [:: (b, Some a)] (sp_ins_rate G0 U x0 nf beta us (su_v s) vs') rs
    (insertion_step ani U tm0 junk beta rval s b 1 us rs) /\
  forall s2, post s s2 vs' -> session s2 pend.
Proof.
move=> h a vs'; have [re tr co ok [uw wa]] := h.
have [//|[_ bl nb nb0]] := wa b 1%N (mem_head _ _).
have val : valid_req U d0 (su_v s) [:: (b, Some a)].
  by apply: valid1 => //; case/andP: (all_nthP d0 ok _ bl).
have sim : simple U d0 nf (su_v0 s) (su_v s) [:: (b, Some a)].
  by apply: simple1; left; rewrite /sp_state nb nb0.
split.
  have [s1 [d [f [u [e e1 er dec]]]]] := flip_step re tr val sim.
  rewrite /insertion_step /= addn0 -/a e /= e1 corrE ?(e_known h) // expr1.
  apply: dec.
    have c0 : 0 <= beta * (size U)%:R / (sp_order (su_v s)).+1%:R.
      by rewrite mulr_ge0 ?invr_ge0 ?ler0n // mulr_ge0 ?ler0n // ltW.
    by rewrite er -/vs' /sp_ins_rate [RHS]normrM [X in _ = X * _]normrM (ger0_norm c0) (gtr0_norm upos).
  by rewrite !mulf_eq0 !negb_or => /andP[/andP[/andP[/andP[-> ->] ->] _] _].
move=> s2 [r2 t2 v2 v02].
split=> //.
- by rewrite v2 v02 -co; apply: core_flip.
- by rewrite v2; apply: okv_flip.
have [u' w'] := waiting_behead (conj uw wa).
split=> // b' n' bi; have [->|[e1 b'l n1 n2]] := w' _ _ bi; [by left | right].
split=> //; rewrite ?v02 ?v2 ?size_sp_flip // flip1_nth //.
case: eqP => // eb; move: uw; rewrite /= -eb => /andP[/negP []].
by apply/mapP; exists (b', n') => //; rewrite mem_filter bi e1 eqxx.
Qed.

(* a removal *)
Lemma removal_ok s pend r rs : session s pend ->
  let pos := sp_int_positions d0 (su_v s) in
  if (0 < sp_order (su_v s))%N then
    let p := nth 0%N pos (ridx (sp_order (su_v s)) r) in
    let vs' := sp_flip d0 (su_v s) [:: (p, None)] in
    [/\ p \in pos, decided s [:: (p, None)] (sp_rem_rate G0 U x0 nf beta us (su_v s) vs') rs
        (removal_step ani U tm0 junk beta rval ridx s us (r :: rs)) &
        forall s2, post s s2 vs' -> session s2 pend]
  else removal_step ani U tm0 junk beta rval ridx s us (r :: rs) = Ok (1, s, r :: rs).
Proof.
move=> h pos; have [re tr co ok [uw wa]] := h.
rewrite /removal_step /pick_removed posE ?(e_known h) // -/pos size_positions.
case: (posnP (sp_order (su_v s))) => [o0|op] /=.
  by have -> : size pos == 0%N by rewrite size_positions o0.
have kl := rok r op; rewrite leqNgt kl /= take_swap ?size_positions //=.
set p := nth 0%N pos _.
have pi : p \in pos by apply: mem_nth; rewrite size_positions.
move: (pi); rewrite mem_filter mem_iota add0n => /andP[pint pl].
have val : valid_req U d0 (su_v s) [:: (p, None)] by apply: valid1.
have sim : simple U d0 nf (su_v0 s) (su_v s) [:: (p, None)].
  apply: simple1; rewrite /sp_state (negbTE pint); case: (v_non (nth d0 (su_v0 s) p)); first by right.
  by left; rewrite (e_nth h).
split; first by rewrite pint pl.
  have [s1 [d [f [u [e e1 er dec]]]]] := flip_step re tr val sim.
  rewrite e /= expr1; apply: dec.
    have c0 : 0 <= (sp_order (su_v s))%:R / (beta * (size U)%:R).
      by rewrite mulr_ge0 ?ler0n // invr_ge0 mulr_ge0 ?ler0n // ltW.
    by rewrite er /sp_rem_rate [RHS]normrM [X in _ = X * _]normrM (ger0_norm c0) normfV (gtr0_norm upos).
  by rewrite !mulf_eq0 !negb_or => /andP[/andP[/andP[/andP[-> ->] ->] _] _].
move=> s2 [r2 t2 v2 v02]; split=> //.
- by rewrite v2 v02 -co; apply: core_flip.
- by rewrite v2; apply: okv_flip.
split=> // b n bi; have [->|[e1 bl n1 n2]] := wa _ _ bi; [by left | right].
split=> //; rewrite ?v02 ?v2 ?size_sp_flip // flip1_nth //.
by case: eqP.
Qed.

(* ---- the loop ---- *)

Lemma ratio_neq1 (a b : F) : b != 0 -> (a / b != 1) = (a != b).
Proof. by move=> b0; rewrite -(inj_eq (mulIf b0)) mulfVK // mul1r. Qed.

Notation changes := (sp_changes_weight G0 U x0 nf).

Definition loop_result (s : sub F Tm) (n : nat) (w : F) (c : stats) (res : outcome (F * sub F Tm * stats * seq R)) : Prop :=
  exists tr w2 s2 c2 rs2 pend2, [/\ res = Ok (w2, s2, c2, rs2), session s2 pend2,
    size tr = n /\ sp_trace d0 (su_v s) tr, su_v s2 = last (su_v s) tr &
    w2 = w * (wt (su_v s2) / wt (su_v s)) /\ c2 = (c.1 + changes (su_v s) tr, c.2 + (n - changes (su_v s) tr))%N].

Lemma changes_le vs tr : (changes vs tr <= size tr)%N.
Proof. by elim: tr vs => //= ws tr ih vs; have := ih ws; case: (_ != _); lia. Qed.

(* one more step in front *)
Lemma loop_cons s s2 ws n w w1 c res : reach s -> reach s2 ->
  su_v s2 = ws -> (ws = su_v s \/ exists p st, (p < size (su_v s))%N /\ ws = sp_flip d0 (su_v s) [:: (p, st)]) ->
  w1 = wt ws / wt (su_v s) ->
  loop_result s2 n (w * w1) (if w1 != 1 then accepted c else rejected c) res ->
  loop_result s n.+1 w c res.
Proof.
move=> re re2 e2 st ew [tr [w2 [s3 [c2 [rs2 [pend2 [eres se [sz trc] el [ew2 ec]]]]]]]].
exists (ws :: tr), w2, s3, c2, rs2, pend2; split=> //.
- by split; [rewrite /= sz | split=> //; rewrite -e2].
- by rewrite el e2.
split; first by rewrite ew2 ew -e2 -mulrA; congr (_ * _); rewrite mulrC mulrA mulfVK // reach_w.
have cl := changes_le ws tr; rewrite sz in cl.
rewrite /= ec ew ratio_neq1 ?reach_w // e2; case: (wt ws != wt (su_v s)); rewrite /accepted /rejected /=;
  congr (_, _); move: cl; clear; lia.
Qed.

Notation loop := (ins_rem_loop ani U tm0 junk beta max_order rval ridx).

Lemma loop_ok kinds pend s w c rs : session s pend -> (count id kinds <= size pend)%N ->
  loop kinds pend us s w c rs = Diverge \/ loop_result s (size kinds) w c (loop kinds pend us s w c rs).
Proof.
elim: kinds pend s w c rs => [|k ks ih] pend s w c rs h.
  right; exists [::], w, s, c, rs, pend; split=> //.
  by rewrite divff ?mulr1 ?(reach_w (e_re h)) //= !addn0; case: c.
have re := e_re h; have nz := reach_w re.
have stay pend' rs' : session s pend' -> (count id ks <= size pend')%N ->
  loop ks pend' us s (w * 1) (if 1 != 1 :> F then accepted c else rejected c) rs' = Diverge \/
  loop_result s (size ks).+1 w c (loop ks pend' us s (w * 1) (if 1 != 1 :> F then accepted c else rejected c) rs').
  move=> h' cl; have [->|q] := ih _ _ (w * 1) (if 1 != 1 :> F then accepted c else rejected c) rs' h' cl; first by left.
  right; apply: (loop_cons (s2 := s) (ws := su_v s) (w1 := 1) re re) q => //; first by left.
  by rewrite divff.
have go s2 ws pend' rs' : su_v s2 = ws ->
  (exists p st, (p < size (su_v s))%N /\ ws = sp_flip d0 (su_v s) [:: (p, st)]) ->
  session s2 pend' -> (count id ks <= size pend')%N ->
  let w1 := wt ws / wt (su_v s) in
  loop ks pend' us s2 (w * w1) (if w1 != 1 then accepted c else rejected c) rs' = Diverge \/
  loop_result s (size ks).+1 w c (loop ks pend' us s2 (w * w1) (if w1 != 1 then accepted c else rejected c) rs').
  move=> e2 st h' cl w1; have [->|q] := ih _ _ (w * w1) (if w1 != 1 then accepted c else rejected c) rs' h' cl; first by left.
  by right; apply: (loop_cons re (e_re h') e2 _ (erefl w1) q); right.
case: k.
  case: pend h => [|[b n] pend] h cl; first by exfalso; move: cl; rewrite /=; lia.
  have cl' : (count id ks <= size pend)%N by move: cl; rewrite /=; lia.
  have h' : session s pend by exact: (session_sub h (waiting_behead (e_wait h))).
  rewrite [loop _ _ _ _ _ _ _]/=; case: ltnP => _; first exact: stay.
  have [e0|[e1 bl _ _]] := (e_wait h).2 b n (mem_head _ _).
    by rewrite e0 /insertion_step /=; apply: stay.
  rewrite e1 in h *; have [dec nxt] := insertion_ok rs h.
  case: rs dec => [|r rs]; first by move=> /= ->; left.
  case=> s2 -> /=; case: ifP => _ po.
    by apply: go => //; [exact: (p_v po) | exists b, (Some (v_af (nth d0 (su_v s) b))) | apply: nxt].
  have [r2 t2 v2 v02] := po; have h2 := session_keep h' po.
  have [->|q] := ih _ _ (w * 1) (if 1 != 1 :> F then accepted c else rejected c) rs h2 cl'; first by left.
  by right; apply: (loop_cons re r2 v2 _ _ q); [left | rewrite divff].
move=> cl; have cl' : (count id ks <= size pend)%N by move: cl; rewrite /=; lia.
rewrite [loop _ _ _ _ _ _ _]/=.
case: rs => [|r rs].
  rewrite /removal_step /pick_removed posE ?(e_known h) //.
  case: ltnP => /= q; first by left.
  have z : size (sp_int_positions d0 (su_v s)) == 0%N by move: q; clear; lia.
  by rewrite z /=; apply: stay.
have := removal_ok r rs h; cbv zeta; case: (ltnP 0 (sp_order (su_v s))) => [op|_ ->]; last by apply: stay.
case=> pi dec nxt; move: pi dec nxt; set p := nth 0%N (sp_int_positions d0 (su_v s)) _ => pi dec nxt.
move: pi; rewrite mem_filter mem_iota add0n => /andP[_ pl].
case: rs dec => [|r' rs]; first by move=> ->; left.
case=> s2 -> /=; case: ifP => _ po.
  by apply: go => //; [exact: (p_v po) | exists p, None | apply: nxt].
have [r2 t2 v2 v02] := po; have h2 := session_keep h po.
have [->|q] := ih _ _ (w * 1) (if 1 != 1 :> F then accepted c else rejected c) rs h2 cl'; first by left.
by right; apply: (loop_cons re r2 v2 _ _ q); [left | rewrite divff].
Qed.

(* ---- the whole update ---- *)

Lemma draw_kinds_ok n rs : draw_kinds rhalf n rs = Diverge \/
  exists ks rs2, draw_kinds rhalf n rs = Ok (ks, rs2) /\ size ks = n.
Proof.
elim: n rs => [|n ih] rs /=; first by right; exists [::], rs.
case: rs => [|r rs] /=; first by left.
have [->|[ks [rs2 [-> sz]]]] := ih rs; first by left.
by right; exists (rhalf r :: ks), rs2; rewrite /= sz.
Qed.

Hypothesis afpos : forall t, (t < size U)%N -> (0 < vd_naf (nth (vdef0 F) U t))%N.

Definition fresh_ok (new : seq vtx) : bool :=
  all (fun v => (v_type v < size U)%N && (v_af v < naf v)%N) new.

Lemma gen_vertices_ok rs : gen_vertices U ridx rtime rs = Diverge \/
  exists new rs2, [/\ gen_vertices U ridx rtime rs = Ok (new, rs2), (size new <= 1)%N, fresh_ok new & ((size new == 1%N) = (0 < size U)%N)].
Proof.
rewrite /gen_vertices /sv_size; case: (posnP (size U)) => [_|Up].
  by right; exists [::], rs; split.
case: rs => [|r1 [|r2 rs]] /=; [by left | by left |].
have kl := rok r2 Up; rewrite leqNgt kl /=.
case: rs => [|r3 rs] /=; first by left.
right; eexists _, rs; split; first by reflexivity.
- by [].
- by rewrite /fresh_ok /= /v_type /v_af /sp_def /v_type /= kl rok // afpos.
by [].
Qed.

Lemma gen_all_ok n b rs : gen_all U ridx rtime n b rs = Diverge \/
  exists new pos rs2, [/\ gen_all U ridx rtime n b rs = Ok (new, pos, rs2), size pos = n, fresh_ok new,
     uniq [seq x.1 | x <- pos & x.2 == 1%N] &
     forall x, x \in pos -> x.2 = 0%N \/ [/\ x.2 = 1%N, (b <= x.1)%N & (x.1 < b + size new)%N]].
Proof.
elim: n b rs => [|n ih] b rs /=; first by right; exists [::], [::], rs.
have [->|[new [rs1 [-> /= s1 fr _]]]] := gen_vertices_ok rs; first by left.
have [->|[new2 [pos [rs2 [-> /= sz fr2 un h]]]]] := ih (b + size new)%N rs1; first by left.
right; eexists _, _, rs2; split; first by reflexivity.
- by rewrite /= sz.
- rewrite /fresh_ok all_cat all_map; apply/andP; split=> //; apply: sub_all fr => v /=.
- rewrite /=; case: eqP => [e1|_ //]; rewrite /= un andbT.
  apply/mapP => -[x]; rewrite mem_filter => /andP[/eqP x1 xi] eb.
  by have [q|[_ le _]] := h _ xi; [rewrite q in x1 | move: le; rewrite -eb e1; clear; lia].
move=> x; rewrite in_cons => /orP[/eqP ->|xi] /=.
  case: new s1 fr h => [|v [|]] //= _ _ _; [by left | right].
  by split=> //=; clear; lia.
have [->|[-> le lt]] := h _ xi; [by left | right].
by rewrite size_cat size_map; split=> //; move: le lt; clear; lia.
Qed.

Hypothesis cov : forall v : vtx, (v_type v < size U)%N -> sp_covers U nf v.

Lemma number_core id (new : seq vtx) :
  [seq (v_type v, v_af v) | v <- number_vertices id new] = [seq (v_type v, v_af v) | v <- new].
Proof.
rewrite /number_vertices -map_comp.
have -> : [seq ((fun v : vtx => (v_type v, v_af v)) \o
     (fun x : vtx * nat => set_uid (set_state x.1 None) x.2)) x | x <- zip new (iota id.+1 (size new))]
   = [seq (v_type v, v_af v) | v <- unzip1 (zip new (iota id.+1 (size new)))].
  by rewrite -map_comp; apply: eq_map.
by rewrite unzip1_zip // size_iota.
Qed.

Lemma fresh_number id (new : seq vtx) : fresh_ok new -> fresh_ok (number_vertices id new).
Proof.
have e (l : seq vtx) : fresh_ok l = all (fun x => (x.1 < size U)%N && (x.2 < vd_naf (nth (vdef0 F) U x.1))%N)
    [seq (v_type v, v_af v) | v <- l].
  by rewrite /fresh_ok all_map; apply: eq_all.
by rewrite !e number_core.
Qed.

Notation update := (do_ins_rem ani G0 U x0 tm0 junk beta kmax max_order rval rhalf ridx rtime).

Lemma idle_fresh s : reach s -> ~~ su_trying s -> fresh_ok (su_v s).
Proof.
move=> re tr; have hi := reach_inv tok re; apply/allP => v vi.
have := allP (i_vo hi) _ vi; rewrite /sp_vertex_ok.
by rewrite (negbTE (allP (i_ready hi tr) _ vi)).
Qed.

(* a session of insertions and removals *)
Lemma do_ins_rem_ok s c rs : reach s -> ~~ su_trying s ->
  update s us c rs = Diverge \/
  exists tr w2 s2 c2 rs2, [/\ update s us c rs = Ok (w2, s2, c2, rs2),
    reach s2 /\ ~~ su_trying s2, w2 = wt (su_v s2) / wt (su_v s),
    exists2 vs, [seq v <- vs | ~~ v_non v] = su_v s &
      [/\ sp_trace d0 vs tr, su_v s2 = [seq v <- last vs tr | ~~ v_non v] &
         c2 = (c.1 + changes vs tr, c.2 + (2 * kmax - changes vs tr))%N] &
    size tr = (2 * kmax)%N].
Proof.
move=> re tr; rewrite /do_ins_rem.
have [->|[ks [rs1 [-> szk]]]] := draw_kinds_ok (2 * kmax) rs; first by left.
rewrite [obind (Ok _) _]/=.
have [->|[new [pos [rs2 [-> szp fr un wa]]]]] := gen_all_ok (count id ks) (size (su_v s)) rs1; first by left.
rewrite [obind (Ok _) _]/=.
have tn : all (fun v => v_type v < size U)%N new by apply: sub_all fr => v /andP[].
have hi := reach_inv tok re.
have [s1 e1 [i1 t1 v1 v01]] := init_ok tok hi tr tn.
have re1 : reach s1 by apply: R_init re tr tn e1.
rewrite e1 [obind (Ok _) _]/=.
have fr1 : fresh_ok (su_v s1).
  by rewrite v1 /fresh_ok all_cat; apply/andP; split; [exact: idle_fresh | exact: fresh_number].
have se : session s1 pos.
  split=> //; first by rewrite v01.
  split=> // b n bi; have [/= ->|[/= -> le lt]] := wa _ bi; [by left | right].
  have bn : v_non (nth d0 (su_v s1) b).
    rewrite v1 nth_cat ltnNge le /=.
    apply: (allP (number_non_raw (su_id s) new)); apply: mem_nth; rewrite number_size.
    by rewrite -(ltn_add2l (size (su_v s))) subnKC.
  by split=> //; [rewrite v1 size_cat number_size | rewrite v01].
have szc : (count id ks <= size pos)%N by rewrite szp.
have [->|[tr' [w2 [s2 [c2 [rs3 [pend2 [-> se2 [szt trc] el [ew ec]]]]]]]]] := loop_ok 1 c rs2 se szc; first by left.
rewrite [obind (Ok _) _]/=; right.
have cv : all (fun v => v_non v ==> sp_covers U nf v) (su_v s2).
  by apply/allP => v vi; apply/implyP => _; apply: cov; apply: (allP (e_known se2)).
have hi2 := reach_inv tok (e_re se2).
have [s3 e3 [i3 t3 v3 _]] := finalize_ok tok tm0 hi2 cv.
exists tr', w2, s3, c2, rs3; rewrite e3; split=> //.
- by split=> //; apply: R_finalize (e_re se2) e3.
- by rewrite ew mul1r v3 -wt_ints; congr (_ / _); rewrite (wt_ints _ _ _ _ (su_v s1)) v1 filter_cat (all_filterP (i_ready hi tr)) (_ : [seq v <- number_vertices _ _ | _] = [::]) ?cats0 //;
    apply/eqP; rewrite -(negbK (_ == _)) -has_filter -all_predC; apply: sub_all (number_non_raw (su_id s) new) => v /= ->.
- exists (su_v s1).
    rewrite v1 filter_cat (all_filterP (i_ready hi tr)) (_ : [seq v <- number_vertices _ _ | _] = [::]) ?cats0 //.
    by apply/eqP; rewrite -(negbK (_ == _)) -has_filter -all_predC; apply: sub_all (number_non_raw (su_id s) new) => v /= ->.
  by split=> //; [rewrite v3 el | rewrite -szk].
by rewrite szt.
Qed.

(* ---- spin flips ---- *)

Lemma draw_spin_ok n old rs : (1 < n)%N -> draw_spin ridx n old rs = Diverge \/
  exists a rs2, [/\ draw_spin ridx n old rs = Ok (a, rs2), (a < n)%N & a != old].
Proof.
move=> n1; elim: rs => [|r rs ih] /=; first by left.
case: eqP => [_|/eqP ne]; first exact: ih.
by right; exists (ridx n r), rs; split=> //; apply: rok; apply: ltnW.
Qed.

Definition untouched (s : sub F Tm) (ps : seq nat) : Prop :=
  uniq ps /\ forall p, p \in ps -> (p < size (su_v s))%N /\ nth d0 (su_v s) p = nth d0 (su_v0 s) p.

Record flips (s : sub F Tm) (ps : seq nat) : Prop := Flips {
  g_re : reach s; g_tr : su_trying s; g_int : all (fun v => ~~ v_non v) (su_v s);
  g_ok : fresh_ok (su_v s); g_un : untouched s ps }.

Lemma spin_step_ok s p ps rs : flips s (p :: ps) ->
  let step := spin_flip_step ani U tm0 junk rval ridx s p rs in
  let v := nth d0 (su_v s) p in
  if (1 < naf v)%N then
    step = Diverge \/ exists a rs1, [/\ (a < naf v)%N, a != v_af v, draw_spin ridx (naf v) (v_af v) rs = Ok (a, rs1),
      decided s [:: (p, Some a)] `|wt (sp_flip d0 (su_v s) [:: (p, Some a)]) / wt (su_v s)| rs1 step &
      forall s2, post s s2 (sp_flip d0 (su_v s) [:: (p, Some a)]) -> flips s2 ps]
  else step = Ok (1, s, rs).
Proof.
move=> h step v; have [re tr it ok [up un]] := h.
have [pl ep] := un p (mem_head _ _).
have /andP[tv av] := all_nthP d0 ok _ pl.
rewrite {}/step /spin_flip_step [(size _ <= p)%N]leqNgt pl /= [(size U <= _)%N]leqNgt tv /= -/v.
rewrite (_ : vd_naf (get_vertex U (v_type v)) = naf v) //.
case: (ltnP 1 (naf v)) => n1 //.
have [->|[a [rs1 [ed al ane]]]] := draw_spin_ok (v_af v) rs n1; first by left.
right; exists a, rs1; rewrite ed.
have val : valid_req U d0 (su_v s) [:: (p, Some a)] by apply: valid1.
have sim : simple U d0 nf (su_v0 s) (su_v s) [:: (p, Some a)] by apply: simple1; left; rewrite ep.
split=> //.
  have [s1 [d [f [u [e e1 er dec]]]]] := flip_step re tr val sim.
  by rewrite /= e /=; apply: dec; rewrite ?er.
move=> s2 [r2 t2 v2 v02]; split=> //.
- rewrite v2; apply/(all_nthP d0) => i; rewrite size_sp_flip => il; rewrite flip1_nth //.
  by case: eqP => // _; apply: (all_nthP d0 it).
- rewrite v2; apply/(all_nthP d0) => i; rewrite size_sp_flip => il; rewrite flip1_nth //.
  case: eqP => [_|_]; last exact: (all_nthP d0 ok).
  by rewrite /v_type /v_af /sp_def /v_type /= tv.
case/andP: up => pn up; split=> // p' p'i; rewrite v2 v02 size_sp_flip.
have p'i' : p' \in p :: ps by rewrite in_cons p'i orbT.
have [p'l e'] := un p' p'i'.
by split=> //; rewrite flip1_nth //; case: eqP => // q; move: pn; rewrite -q p'i.
Qed.

Lemma flips_behead s p ps : flips s (p :: ps) -> flips s ps.
Proof.
move=> [re tr it ok [/andP[_ up] un]]; split=> //; split=> // q qi.
by apply: un; rewrite in_cons qi orbT.
Qed.
Lemma flips_keep s ps s2 : flips s ps -> post s s2 (su_v s) -> flips s2 ps.
Proof. by move=> [a b c d e] [r t v v0]; split; rewrite ?v //; move: e; rewrite /untouched v v0. Qed.

Notation sloop := (spin_flip_loop ani U tm0 junk rval ridx).

Lemma spin_loop_ok ps s w rs : flips s ps ->
  sloop ps s w rs = Diverge \/
  exists s2 rs2, [/\ sloop ps s w rs = Ok (w * (wt (su_v s2) / wt (su_v s)), s2, rs2), flips s2 [::] &
    size (su_v s2) = size (su_v s)].
Proof.
elim: ps s w rs => [|p ps ih] s w rs h.
  by right; exists s, rs; rewrite divff ?mulr1 // (reach_w (g_re h)).
have nz := reach_w (g_re h).
have stay rs' : sloop ps s (w * 1) rs' = Diverge \/
  exists s2 rs2, [/\ sloop ps s (w * 1) rs' = Ok (w * (wt (su_v s2) / wt (su_v s)), s2, rs2), flips s2 [::] &
    size (su_v s2) = size (su_v s)].
  by have := ih s (w * 1) rs' (flips_behead h); rewrite mulr1.
have := spin_step_ok rs h; rewrite /=; case: ifP => _; last by move=> -> /=; apply: stay.
case=> [->|[a [rs1 [al ane _ dec nxt]]]]; first by left.
case: rs1 dec => [|r rs1]; first by move=> ->; left.
case=> s2 -> /=; case: ifP => _ po.
  have h2 := nxt _ po; have [->|[s3 [rs2 [-> f3 z3]]]] := ih s2 (w * (wt (sp_flip d0 (su_v s) [:: (p, Some a)]) / wt (su_v s))) rs1 h2; first by left.
  have nz2 := reach_w (p_re po); right; exists s3, rs2; split=> //; last by rewrite z3 (p_v po) size_sp_flip.
  congr (Ok (_, _, _)); rewrite -(p_v po) -mulrA; congr (_ * _).
  by rewrite mulrC mulrA mulfVK.
have h2 := flips_keep (flips_behead h) po.
have [->|[s3 [rs2 [-> f3 z3]]]] := ih s2 (w * 1) rs1 h2; first by left.
by right; exists s3, rs2; rewrite mulr1 -(p_v po); split.
Qed.

Lemma pickup_okay N n rs : (n <= N)%N -> pickup ridx N n rs = Diverge \/
  exists ps rs2, [/\ pickup ridx N n rs = Ok (ps, rs2), uniq ps & all (fun i => i < N)%N ps].
Proof.
move=> nN; case e : (pickup ridx N n rs) => [[ps rs2]|||]; last by left.
- by right; exists ps, rs2; have [] := pickup_ok rok nN e.
all: exfalso; move: e; rewrite /pickup; case: (posnP N) => [N0|Np];
  first by have -> : n = 0%N by move: nN; rewrite N0; case: (n).
all: have dr : all (fun d => d < N)%N [seq ridx N r | r <- rs]
  by rewrite all_map; elim: (rs) => //= r rs' ->; rewrite rok.
all: by have := pickupE n dr; case: ifP => _; [case=> rest -> | move=> ->].
Qed.

Notation supdate := (do_spin_flip ani G0 U x0 tm0 junk kmax rval ridx).

Lemma obOk (A B : Type) (a : A) (f : A -> outcome B) : obind (Ok a) f = f a. Proof. by []. Qed.

Lemma do_spin_flip_ok s rs : reach s -> ~~ su_trying s ->
  supdate s rs = Diverge \/
  exists w2 s2 rs2, [/\ supdate s rs = Ok (w2, s2, rs2), reach s2, ~~ su_trying s2,
    w2 = wt (su_v s2) / wt (su_v s) & size (su_v s2) = size (su_v s)].
Proof.
move=> re tr; rewrite /do_spin_flip; have hi := reach_inv tok re.
have [->|[ps [rs1 [-> up aN]]]] := pickup_okay rs (geq_minr (2 * kmax) (size (su_v s))); first by left.
rewrite obOk.
have [s1 e1 [i1 t1 v1 v01]] := init_ok tok hi tr (isT : all (fun v => v_type v < size U)%N [::]).
rewrite cats0 in v1.
have re1 : reach s1 by apply: R_init re tr (isT : all (fun v => v_type v < size U)%N [::]) e1.
rewrite e1 obOk.
have fl : flips s1 ps.
  split=> //; rewrite ?v1; [exact: (i_ready hi tr) | exact: idle_fresh |].
  by split=> // p pi; rewrite v01 v1 (allP aN _ pi).
have [->|[s2 [rs2 [-> f2 z2]]]] := spin_loop_ok 1 rs1 fl; first by left.
rewrite obOk; right.
have hi2 := reach_inv tok (g_re f2).
have cv : all (fun v => v_non v ==> sp_covers U nf v) (su_v s2).
  by apply/allP => v vi; rewrite (negbTE (allP (g_int f2) _ vi)).
have [s3 e3 [i3 t3 v3 _]] := finalize_ok tok tm0 hi2 cv.
rewrite (all_filterP (g_int f2)) in v3.
exists (1 * (wt (su_v s2) / wt (su_v s1))), s3, rs2; rewrite e3; split=> //.
- exact: R_finalize (g_re f2) e3.
- by rewrite mul1r v3 v1.
by rewrite v3 z2 v1.
Qed.

(* ---- detailed balance ---- *)

Lemma order_flip_on (vs : seq vtx) p a : (p < size vs)%N -> v_non (nth d0 vs p) ->
  sp_order (sp_flip d0 vs [:: (p, Some a)]) = (sp_order vs).+1.
Proof.
move=> pl np; rewrite /sp_order !size_filter.
have e : sp_flip d0 vs [:: (p, Some a)] = set_nth d0 vs p (sp_set (nth d0 vs p) (Some a)).
  rewrite sp_flip_cons //=; apply: (@eq_from_nth _ d0); rewrite size_sp_flip // => i il.
  by rewrite nth_sp_flip.
by have := count_set tm0 (sp_set (nth d0 vs p) (Some a)) pl; rewrite -e np /= addn0 addn1.
Qed.

Lemma prod_set (h : vtx -> F) (vs : seq vtx) p x : (p < size vs)%N -> v_non (nth d0 vs p) -> ~~ v_non x ->
  \prod_(v <- set_nth d0 vs p x | ~~ v_non v) h v = h x * \prod_(v <- vs | ~~ v_non v) h v.
Proof.
move=> pl np nx; elim: vs p pl np => [|v vs ih] [|p] //= pl np.
  by rewrite !big_cons nx np.
by rewrite !big_cons ih //; case: ifP => // _; rewrite mulrCA.
Qed.

Lemma target_on (vs : seq vtx) p a : (p < size vs)%N -> v_non (nth d0 vs p) ->
  let vs' := sp_flip d0 vs [:: (p, Some a)] in
  \prod_(v <- vs' | ~~ v_non v) ((naf v)%:R : F)^-1 =
  ((naf (nth d0 vs p))%:R)^-1 * \prod_(v <- vs | ~~ v_non v) ((naf v)%:R)^-1.
Proof.
move=> pl np vs'.
have -> : vs' = set_nth d0 vs p (sp_set (nth d0 vs p) (Some a)).
  rewrite /vs' sp_flip_cons //=; apply: (@eq_from_nth _ d0); rewrite size_sp_flip // => i il.
  by rewrite nth_sp_flip.
by rewrite (prod_set (fun v => ((naf v)%:R)^-1)).
Qed.

End Man.
