(* Property theorems: C78 (windows of imaginary time), C79 (pairs of vertices in a window),
   C80 (generated vertices). *)
From mathcomp Require Import all_ssreflect ssralg ssrnum ssrint rat order zify.
From Verif Require Import Outcome SubModel UMatModel ManModel WinModel.

Set Implicit Arguments.
Unset Strict Implicit.
Unset Printing Implicit Defensive.

Import Order.TTheory GRing.Theory Num.Theory.
Local Open Scope ring_scope.

(* ---- specification ---- *)

(* the times reached from ts by going forward by at most w on the circle of length beta *)
Definition on_arc (F : realFieldType) (ts w beta t : F) : Prop :=
  exists2 x, 0 <= x <= w & (t == ts + x) || (t == ts + x - beta).

(* positions of two vertices in the window, not of density type, the types of the later and
   the earlier one marked *)
Definition sp_pair_in (F : realFieldType) (density : nat -> bool) (flag : nat -> nat -> bool)
    (inside : F -> bool) (d : vertex (Num.RealField.eqType F)) (vs : seq (vertex (Num.RealField.eqType F))) (p : nat * nat) : bool :=
  let ok i := ~~ density (v_type (nth d vs i)) && inside (v_time (nth d vs i)) in
  [&& (p.2 < p.1)%N, (p.1 < size vs)%N, ok p.1, ok p.2 & flag (v_type (nth d vs p.1)) (v_type (nth d vs p.2))].

(* ------------------------------------------------------------------ C78 *)

Section Window.
Variable F : realFieldType.
Notation vertex := (vertex (Num.RealField.eqType F)).
Implicit Types (ts w beta t r : F).

Lemma window_iff (density : nat -> bool) ts w beta (v : vertex) : 0 <= ts <= beta -> 0 <= w <= beta ->
  0 < v_time v <= beta ->
  win_test density (win_new ts w beta) v <-> ~~ density (v_type v) /\ on_arc ts w beta (v_time v).
Proof.
move=> /andP[ts0 tsb] /andP[w0 wb] /andP[t0 tb]; set t := v_time v in t0 tb *.
suff h : (((w_s1 (win_new ts w beta) <= t) && (t <= w_l1 (win_new ts w beta))) ||
          ((w_s2 (win_new ts w beta) <= t) && (t <= w_l2 (win_new ts w beta)))) <-> on_arc ts w beta t.
  rewrite /win_test -/t; split; last by case=> -> /h ->.
  by case/andP=> -> /h.
rewrite /win_new; case: (lerP (ts + w) beta) => hw /=.
  rewrite orbb; split.
    case/andP => h1 h2; exists (t - ts); first by rewrite subr_ge0 h1 ler_subl_addl.
    by rewrite addrC subrK eqxx.
  case=> x /andP[x0 xw] /orP[/eqP e|/eqP e]; rewrite e.
    by rewrite ler_addl x0 ler_add2l xw.
  exfalso; have : t <= 0 by rewrite e subr_le0 (le_trans _ hw) // ler_add2l.
  by rewrite leNgt t0.
split.
  case/orP => /andP[h1 h2].
    exists (t - ts); last by rewrite addrC subrK eqxx.
    by rewrite subr_ge0 h1 ler_subl_addl (le_trans h2) // ltW.
  exists (t - ts + beta); last by apply/orP; right; rewrite addrA addrK addrC subrK.
  apply/andP; split; first by rewrite -addrA addr_ge0 ?(ltW t0) // addrC subr_ge0.
  by rewrite -ler_subr_addr ler_subl_addr addrAC.
case=> x /andP[x0 xw] /orP[/eqP e|/eqP e]; apply/orP; [left|right].
  by rewrite tb andbT e ler_addl.
by rewrite ltW // e ler_sub // addrC ler_add2r.
Qed.

Lemma time_arc ts w beta r : 0 <= r <= 1 -> 0 <= w ->
  0 <= r * w <= w.
Proof. by case/andP=> r0 r1 w0; rewrite mulr_ge0 //= ler_pimull. Qed.

Lemma win_timeE ts w beta r : win_time (win_new ts w beta) r =
  if beta < ts + r * w then ts + r * w - beta else ts + r * w.
Proof. by rewrite /win_time /win_new; case: (ts + w <= beta); rewrite /= [r * w + ts]addrC. Qed.

End Window.

(* The test accepts exactly the vertices that are not of density type whose time is on the
   arc of length w that starts at ts; at time 0 it does so if the arc starts there or goes
   beyond beta. *)
Theorem C78_window :
  forall (F : realFieldType) (density : nat -> bool) (ts w beta : F) (v : vertex (Num.RealField.eqType F)),
    0 <= ts <= beta -> 0 <= w <= beta -> 0 <= v_time v <= beta ->
    (0 < v_time v ->
     (win_test density (win_new ts w beta) v <-> ~~ density (v_type v) /\ on_arc ts w beta (v_time v))) /\
    (v_time v = 0 ->
     win_test density (win_new ts w beta) v = ~~ density (v_type v) && ((ts == 0) || (beta < ts + w))).
Proof.
move=> F density ts w beta v hts hw /andP[t0 tb]; split.
  by move=> tp; apply: window_iff; rewrite ?tp.
move=> e; rewrite /win_test e; congr andb.
case/andP: hts => ts0 tsb; case/andP: hw => w0 wb.
rewrite /win_new; case: (lerP (ts + w) beta) => hwb /=.
  by rewrite orbb orbF [ts <= 0]le_eqVlt ltNge ts0 orbF addr_ge0 // andbT.
by rewrite lexx subr_ge0 [w + ts]addrC (ltW hwb) !orbT.
Qed.
Print Assumptions C78_window.

(* random_time maps [0, 1] to the arc, proportionally to the length, and onto it; what it
   returns passes the test. *)
Theorem C78_random_time :
  forall (F : realFieldType) (density : nat -> bool) (ts w beta : F),
    0 <= ts <= beta -> 0 < w <= beta ->
    (forall r, 0 <= r <= 1 -> let t := win_time (win_new ts w beta) r in
       [/\ 0 <= t <= beta, t = ts + r * w \/ t = ts + r * w - beta &
           forall v, v_time v = t -> ~~ density (v_type v) -> win_test density (win_new ts w beta) v]) /\
    (forall t, 0 < t <= beta -> on_arc ts w beta t ->
       exists2 r, 0 <= r <= 1 & win_time (win_new ts w beta) r = t).
Proof.
move=> F density ts w beta hts hw; have /andP[w0 wb] := hw; have /andP[ts0 tsb] := hts.
have hw' : 0 <= w <= beta by rewrite ltW.
split=> [r hr|t /andP[t0 tb] [x /andP[x0 xw] e]].
  have /andP[x0 xw] := time_arc ts beta hr (ltW w0); move: (r * w) x0 xw (win_timeE ts w beta r) => x x0 xw ->.
  split.
  - case: ltP => h; last by rewrite h addr_ge0.
    by rewrite subr_ge0 ltW //= ler_subl_addr ler_add // (le_trans xw).
  - by case: ifP => _; [right|left].
  - move=> v vt nd; rewrite /win_test nd vt /= /win_new.
    case: (ltP beta (ts + x)) => h.
      have -> : (ts + w <= beta) = false by apply/negbTE; rewrite -ltNge (lt_le_trans h) // ler_add2l.
      by rewrite /= subr_ge0 (ltW h) /= [w + ts]addrC ler_add2r ler_add2l xw orbT.
    case: ifP => _ /=; first by rewrite ler_addl x0 ler_add2l xw.
    by rewrite ler_addl x0 h.
exists (x / w); first by rewrite divr_ge0 ?(ltW w0) //= ler_pdivr_mulr // mul1r.
rewrite win_timeE divfK ?gt_eqF //; case/orP: e => /eqP e.
  by rewrite -e ltNge tb.
by rewrite -subr_gt0 -e t0.
Qed.
Print Assumptions C78_random_time.

Example C78_case : let W := win_new (3%:R / 4%:R) (1 / 2%:R) (1 : rat) in
  [/\ win_time W (1 / 2%:R) = 1, win_time W 1 = 1 / 4%:R, win_time W 0 = 3%:R / 4%:R &
      win_test (fun=> false) W (0%N, 0%N, 1 / 5%:R, false, 0%N) &&
      ~~ win_test (fun=> false) W (0%N, 0%N, 1 / 2%:R, false, 0%N)].
Proof. by []. Qed.

(* ------------------------------------------------------------------ C79 *)

Section Pairs.
Variable F : realFieldType.
Notation vertex := (vertex (Num.RealField.eqType F)).
Variables (density : nat -> bool) (ntype : nat) (flag : nat -> nat -> bool) (window : vertex -> bool) (d : vertex).
Let okv v := window v && ~~ density (v_type v).
Let posn (vs : seq vertex) := [seq i <- iota 0 (size vs) | okv (nth d vs i)].

Lemma pick_loop vs : foldl (pick_step density window) ([::], [::], 0%N) vs =
  ([seq v_type (nth d vs i) | i <- posn vs], posn vs, size vs).
Proof.
elim/last_ind: vs => [|vs v IH] //; rewrite -cats1 foldl_cat IH /= -/(okv v).
have e : posn (vs ++ [:: v]) = posn vs ++ (if okv v then [:: size vs] else [::]).
  rewrite /posn size_cat /= iotaD filter_cat add0n /=; congr (_ ++ _).
    apply: eq_in_filter => i; rewrite mem_iota => /andP[_ hi]; rewrite nth_cat.
    by rewrite add0n in hi; rewrite hi.
  by rewrite nth_cat ltnn subnn.
rewrite e map_cat size_cat addn1.
have e2 : [seq v_type (nth d (vs ++ [:: v]) i) | i <- posn vs] = [seq v_type (nth d vs i) | i <- posn vs].
  apply/eq_in_map => i; rewrite mem_filter mem_iota add0n => /andP[_ /andP[_ hi]].
  by rewrite nth_cat hi.
rewrite e2; case: ifP => _ /=; last by rewrite !cats0.
by rewrite nth_cat ltnn subnn !cats1.
Qed.

Lemma inner_ok (tys pos : seq nat) iv (l : seq (nat * nat)) js :
  (nth 0%N tys iv < ntype)%N -> all (fun j => nth 0%N tys j < ntype)%N js ->
  foldl (pick_inner ntype flag tys pos iv) (Ok l) js =
  Ok (l ++ [seq (nth 0%N pos iv, nth 0%N pos j) | j <- js & (j < iv)%N && flag (nth 0%N tys iv) (nth 0%N tys j)]).
Proof.
move=> hi; elim: js l => [|j js IH] l /=; first by rewrite cats0.
case/andP=> hj hjs; rewrite leqNgt /flag_at hi hj /=; case: (j < iv)%N => /=; last by rewrite IH.
by case: (flag _ _) => /=; rewrite IH // cat_rcons.
Qed.

Lemma outer_ok (tys pos js : seq nat) (l : seq (nat * nat)) ivs :
  all (fun j => nth 0%N tys j < ntype)%N ivs -> all (fun j => nth 0%N tys j < ntype)%N js ->
  foldl (fun o iv => foldl (pick_inner ntype flag tys pos iv) o js) (Ok l) ivs =
  Ok (l ++ flatten [seq [seq (nth 0%N pos iv, nth 0%N pos j)
     | j <- js & (j < iv)%N && flag (nth 0%N tys iv) (nth 0%N tys j)] | iv <- ivs]).
Proof.
move=> h1 h2; elim: ivs l h1 => [|iv ivs IH] l /=; first by rewrite cats0.
by case/andP=> hi his; rewrite inner_ok // IH // catA.
Qed.

Lemma pos_pairs_ok vs : all (fun v => v_type v < ntype)%N vs ->
  exists L, [/\ pos_pairs density ntype flag window vs = Ok L, uniq L &
    forall i j, ((i, j) \in L) = [&& (j < i)%N, (i < size vs)%N, okv (nth d vs i), okv (nth d vs j) &
      flag (v_type (nth d vs i)) (v_type (nth d vs j))]].
Proof.
move=> ht; rewrite /pos_pairs pick_loop; set pos := posn vs; set tys := map _ _.
have st : size tys = size pos by rewrite size_map.
have pin k : (k < size pos)%N -> (nth 0%N pos k < size vs)%N && okv (nth d vs (nth 0%N pos k)).
  by move=> hk; have := mem_nth 0%N hk; rewrite mem_filter mem_iota add0n andbC.
have tE k : (k < size pos)%N -> nth 0%N tys k = v_type (nth d vs (nth 0%N pos k)).
  by move=> hk; rewrite (nth_map 0%N).
have tl : all (fun j => nth 0%N tys j < ntype)%N (iota 0 (size tys)).
  apply/allP => k; rewrite mem_iota add0n st /= => hk; rewrite tE //.
  by have /andP[h _] := pin k hk; move/all_nthP: ht => /(_ d _ h).
rewrite outer_ok // cat0s; set L := flatten _; exists L.
have srt : sorted ltn pos by apply: sorted_filter; [exact: ltn_trans|exact: iota_ltn_sorted].
have upos : uniq pos by apply: filter_uniq; apply: iota_uniq.
have inj a b : (a < size pos)%N -> (b < size pos)%N -> nth 0%N pos a = nth 0%N pos b -> a = b.
  by move=> ha hb /eqP; rewrite nth_uniq // => /eqP.
have lt a b : (a < size pos)%N -> (b < size pos)%N -> (nth 0%N pos a < nth 0%N pos b)%N = (a < b)%N.
  move=> ha hb; case: (ltngtP a b) => h.
  - by apply: (sorted_ltn_nth ltn_trans 0%N srt).
  - apply/negbTE; rewrite -leqNgt ltnW //; exact: (sorted_ltn_nth ltn_trans 0%N srt).
  - by rewrite h ltnn.
split=> //.
- rewrite /L st; apply: (@map_uniq _ _ id); rewrite map_id.
  have := iota_uniq 0 (size pos); have : {subset iota 0 (size pos) <= gtn (size pos)} by move=> k; rewrite mem_iota.
  elim: {1 2 4}(iota 0 (size pos)) => [|a l IH] //= sub /andP[na ul].
  have ha : (a < size pos)%N by apply: sub; rewrite mem_head.
  have subl : {subset l <= gtn (size pos)} by move=> x hx; apply: sub; rewrite inE hx orbT.
  rewrite cat_uniq IH // andbT; apply/andP; split.
    rewrite map_inj_in_uniq ?filter_uniq ?iota_uniq // => x y.
    rewrite !mem_filter !mem_iota !add0n => /andP[_ hx] /andP[_ hy] [] ; exact: inj.
  apply/hasPn => -[i j] /flattenP [s /mapP [b hb ->]] /mapP [x _ [-> _]].
  apply/negP => /mapP [y _ [e _]]; case/negP: na; rewrite -(inj b a) //; exact: subl.
- move=> i j; apply/flattenP/idP.
    case=> s /mapP [a]; rewrite mem_iota add0n st /= => ha -> /mapP [b].
    rewrite mem_filter mem_iota add0n /= => /andP[/andP[ba fl] hb] [-> ->].
    have /andP[h1 h2] := pin a ha; have /andP[h3 h4] := pin b hb.
    by rewrite lt // ba h1 h2 h4 /= -!tE.
  case/and5P=> ji isz oi oj fl.
  have ip : i \in pos by rewrite mem_filter oi mem_iota.
  have jp : j \in pos by rewrite mem_filter oj mem_iota add0n (ltn_trans ji isz).
  exists [seq (nth 0%N pos (index i pos), nth 0%N pos k)
     | k <- iota 0 (size tys) & (k < index i pos)%N && flag (nth 0%N tys (index i pos)) (nth 0%N tys k)].
    by apply/mapP; exists (index i pos); rewrite // mem_iota add0n st /= index_mem.
  apply/mapP; exists (index j pos); last by rewrite !nth_index.
  rewrite mem_filter mem_iota add0n /= st !tE ?index_mem // !nth_index // fl !andbT jp andbT.
  by rewrite -lt ?index_mem // !nth_index.
Qed.

Lemma count_ub vs : has okv vs -> count_valid_pair density ntype flag window vs = UB.
Proof.
move=> h; rewrite /count_valid_pair.
have ub l : foldl (count_step density window) UB l = UB by elim: l.
suff -> : foldl (count_step density window) (Ok ([::], [::], 0%N)) vs = UB by [].
elim: vs 0%N h => [|v vs IH] k //= /orP[h|h].
  by rewrite -/(okv v) h.
by rewrite -/(okv v); case: ifP => _ /=; rewrite ?ub // IH.
Qed.
End Pairs.

(* pick_up_valid_vertex_pair reports the number of marked pairs of vertices in the window and
   returns, for a random number that selects the k-th of them, that pair; every pair is
   selected by exactly one k.  Without a pair nothing is drawn and nothing returned. *)
Theorem C79_pick :
  forall (F : realFieldType) (density : nat -> bool) (ntype : nat) (flag : nat -> nat -> bool) (ts w beta : F)
    (R : Type) (ridx : nat -> R -> nat) (vs : seq (vertex (Num.RealField.eqType F))) d,
    all (fun v => v_type v < ntype)%N vs ->
    let test v := win_test density (win_new ts w beta) v in
    let inside t := win_test (fun=> false) (win_new ts w beta) (0%N, 0%N, t, false, 0%N) in
    exists L, [/\ uniq L, forall p, (p \in L) = sp_pair_in density flag inside d vs p,
      L = [::] -> forall rs, pick_valid_pair density ntype flag test ridx vs rs = Ok ([::], 0%N, rs) &
      L <> [::] -> forall r rs, (ridx (size L) r < size L)%N ->
        pick_valid_pair density ntype flag test ridx vs (r :: rs) =
        Ok ([:: (nth (0, 0)%N L (ridx (size L) r)).1; (nth (0, 0)%N L (ridx (size L) r)).2], size L, rs)].
Proof.
move=> F density ntype flag ts w beta R ridx vs d ht test inside.
have [L [e uL hL]] := pos_pairs_ok density flag test d ht; exists L; split=> //.
- case=> i j; rewrite hL /sp_pair_in /test /inside /win_test /=.
  by do 2 (case: (density _); rewrite ?andbF ?andbT //=).
- by move=> L0 rs; rewrite /pick_valid_pair e /= L0.
- move=> L0 r rs hr; rewrite /pick_valid_pair e /=; case: eqP => [/size0nil //|_].
  by rewrite leqNgt hr.
Qed.
Print Assumptions C79_pick.

(* count_valid_vertex_pair, meant to return the same number, stores past the end of an empty
   vector whenever a vertex lies in the window. *)
Theorem C79_count_refuted :
  exists (vs : seq (vertex (Num.RealField.eqType [realFieldType of rat]))),
    let test := win_test (fun=> false) (win_new 0 1 (1 : rat)) in
    (exists2 l, pick_valid_pair (fun=> false) 1 (fun _ _ => true) test (fun _ k => k) vs [:: 0%N] = Ok (l, 1%N, [::]) & size l = 2%N) /\
    count_valid_pair (fun=> false) 1 (fun _ _ => true) test vs = UB.
Proof.
exists [:: (0%N, 0%N, 1 / 2%:R, false, 0%N); (0%N, 0%N, 1 / 3%:R, false, 1%N)] => /=; split=> //.
by exists [:: 1%N; 0%N].
Qed.
Print Assumptions C79_count_refuted.

(* three vertices in a window that goes beyond beta, one of density type *)
Definition v79 : seq (vertex (Num.RealField.eqType [realFieldType of rat])) :=
  [:: (1%N, 0%N, 1 / 10%:R, false, 0%N); (0%N, 0%N, 9%:R / 10%:R, false, 1%N); (2%N, 0%N, 4%:R / 5%:R, false, 2%N);
      (1%N, 0%N, 1 / 2%:R, false, 3%N); (2%N, 0%N, 19%:R / 20%:R, false, 4%N)].
Example C79_case : let test := win_test (fun t => t == 0%N) (win_new (3%:R / 4%:R) (1 / 2%:R) (1 : rat)) in
  [/\ pick_valid_pair (fun t => t == 0%N) 3 (fun a b : nat => a != b) test (fun n k => k) v79 [:: 0%N] = Ok ([:: 2; 0]%N, 2%N, [::]),
      pick_valid_pair (fun t => t == 0%N) 3 (fun a b : nat => a != b) test (fun n k => k) v79 [:: 1%N] = Ok ([:: 4; 0]%N, 2%N, [::]) &
      pick_valid_pair (fun t => t == 0%N) 3 (fun a b : nat => a == b) test (fun n k => k) (take 4 v79) [::] = Ok ([::], 0%N, [::])].
Proof. by []. Qed.

(* ------------------------------------------------------------------ C80 *)

(* a vertex of type t in one of its states, interacting, at a time that satisfies P *)
Definition sp_new_vertex (F : realFieldType) (U : seq (vdef [numFieldType of F])) (P : F -> Prop)
    (v : vertex (Num.RealField.eqType F)) (t : nat) : Prop :=
  [/\ v_type v = t, (v_af v < vd_naf (nth (vdef0 _) U t))%N, ~~ v_non v & P (v_time v)].
(* its time and its state are drawn with random numbers of their own *)
Definition sp_drawn (F : realFieldType) (U : seq (vdef [numFieldType of F])) (R : Type) (ridx : nat -> R -> nat) (rtime : R -> F)
    (v : vertex (Num.RealField.eqType F)) (r_time r_state : R) : Prop :=
  v_time v = rtime r_time /\ v_af v = ridx (vd_naf (nth (vdef0 _) U (v_type v))) r_state.

Section Gen.
Variables (F : realFieldType) (density : nat -> bool) (U : seq (vdef [numFieldType of F])).
Variables (R : Type) (ridx : nat -> R -> nat) (rtime : R -> F) (P : F -> Prop).
Hypothesis ridx_lt : forall n r, (0 < n)%N -> (ridx n r < n)%N.
Hypothesis rtimeP : forall r, P (rtime r).
Hypothesis naf0 : all (fun d => 0 < vd_naf d)%N U.

Lemma gen_one_ok t r1 r2 rs : (t < size U)%N ->
  if density t then gen_one density ridx U rtime t (r1 :: r2 :: rs) = Throw
  else exists2 v, gen_one density ridx U rtime t (r1 :: r2 :: rs) = Ok (v, rs) &
    sp_new_vertex U P v t /\ sp_drawn U ridx rtime v r1 r2.
Proof.
move=> ht; rewrite /gen_one /= leqNgt ht /=; case: (density t) => //; eexists => //; split=> //.
split=> //; last exact: rtimeP.
by rewrite /=; apply: ridx_lt; move/all_nthP: naf0 => /(_ (vdef0 _) t ht).
Qed.

Lemma gen_any_ok valid r1 r2 r3 rs : valid != [::] -> all (fun t => t < size U)%N valid ->
  exists2 v, gen_any ridx U rtime valid (r1 :: r2 :: r3 :: rs) = Ok (v, rs) &
    sp_new_vertex U P v (nth 0%N valid (ridx (size valid) r2)) /\ sp_drawn U ridx rtime v r1 r3.
Proof.
move=> v0 hv; have kl : (ridx (size valid) r2 < size valid)%N by apply: ridx_lt; case: valid v0 hv.
rewrite /gen_any /= leqNgt kl /=; eexists => //; split=> //; split=> //; last exact: rtimeP.
rewrite /=; apply: ridx_lt.
by move/all_nthP: hv => /(_ 0%N _ kl) ht; move/all_nthP: naf0 => /(_ (vdef0 _) _ ht).
Qed.
End Gen.

(* generate_valid_vertex_pair: with a list of pairs of types of the model, none of density
   type, two interacting vertices, of the k-th pair for the random number that selects k, in
   states of their types, at times in the window; five random numbers are used, a separate one for every decision.  A pair with
   a type of density type is an error; without pairs nothing is drawn. *)
Theorem C80_pair :
  forall (F : realFieldType) (density : nat -> bool) (U : seq (vdef [numFieldType of F])) (R : Type)
    (ridx : nat -> R -> nat) (rval : R -> F) (ts w beta : F) (pairs : seq (nat * nat)),
    (forall n r, (0 < n)%N -> (ridx n r < n)%N) -> (forall r, 0 <= rval r <= 1) ->
    0 <= ts <= beta -> 0 < w <= beta -> all (fun d => 0 < vd_naf d)%N U ->
    all (fun p => (p.1 < size U)%N && (p.2 < size U)%N) pairs ->
    let rtime r := win_time (win_new ts w beta) (rval r) in
    let in_win t := 0 <= t <= beta /\ on_arc ts w beta t in
    (pairs = [::] -> forall rs, gen_valid_pair density ridx U rtime pairs rs = Ok ([::], rs)) /\
    (pairs <> [::] -> forall r0 r1 r2 r3 r4 rs,
      let p := nth (0, 0)%N pairs (ridx (size pairs) r0) in
      if density p.1 || density p.2 then gen_valid_pair density ridx U rtime pairs [:: r0, r1, r2, r3, r4 & rs] = Throw
      else exists v0 v1, [/\ gen_valid_pair density ridx U rtime pairs [:: r0, r1, r2, r3, r4 & rs] = Ok ([:: v0; v1], rs),
        sp_new_vertex U in_win v0 p.1 /\ sp_drawn U ridx rtime v0 r1 r2 &
        sp_new_vertex U in_win v1 p.2 /\ sp_drawn U ridx rtime v1 r3 r4]).
Proof.
move=> F density U R ridx rval ts w beta pairs hr hv hts hw hU hp rtime in_win; split=> [-> //|p0 r0 r1 r2 r3 r4 rs p].
have kl : (ridx (size pairs) r0 < size pairs)%N by apply: hr; case: (pairs) p0.
have tP r : in_win (rtime r).
  have [h _] := C78_random_time (fun=> false) hts hw; have [h1 h2 _] := h _ (hv r); split=> //.
  exists (rval r * w); first by apply: time_arc => //; case/andP: hw => /ltW.
  by apply/orP; case: h2 => h2; [left|right]; apply/eqP.
have /andP[l1 l2] : (p.1 < size U)%N && (p.2 < size U)%N by move/all_nthP: hp => /(_ (0, 0)%N _ kl).
rewrite /gen_valid_pair; case: eqP => [/size0nil //|_] /=; rewrite leqNgt kl /= -/p.
have := gen_one_ok density hr tP hU r1 r2 [:: r3, r4 & rs] l1.
case: ifP => [_ ->|_ [v0 -> h0]] //=.
have := gen_one_ok density hr tP hU r3 r4 rs l2.
by case: ifP => [_ ->|_ [v1 -> h1]] //=; exists v0, v1.
Qed.
Print Assumptions C80_pair.

(* generate_itime_vertices: the requested number of interacting vertices, each of one of the
   offered types, chosen by its own random number. *)
Theorem C80_any :
  forall (F : realFieldType) (U : seq (vdef [numFieldType of F])) (R : Type)
    (ridx : nat -> R -> nat) (rtime : R -> F) (P : F -> Prop) (valid : seq nat) (n : nat) (d : R),
    (forall n r, (0 < n)%N -> (ridx n r < n)%N) -> (forall r, P (rtime r)) ->
    all (fun d => 0 < vd_naf d)%N U -> all (fun t => t < size U)%N valid ->
    (valid = [::] -> forall rs, gen_itime ridx U rtime valid n rs = Ok ([::], rs)) /\
    (valid <> [::] -> forall rs rs', size rs = (3 * n)%N ->
      exists2 vs, gen_itime ridx U rtime valid n (rs ++ rs') = Ok (vs, rs') &
        size vs = n /\ forall i, (i < n)%N -> forall v,
          sp_new_vertex U P (nth v vs i) (nth 0%N valid (ridx (size valid) (nth d rs (3 * i).+1))) /\
          sp_drawn U ridx rtime (nth v vs i) (nth d rs (3 * i)) (nth d rs (3 * i).+2)).
Proof.
move=> F U R ridx rtime P valid n d hr hP hU hv; split=> [-> //|v0].
rewrite /gen_itime; case: eqP => [/size0nil //|_] rs rs'.
have {}v0 : valid != [::] by apply/eqP.
elim: n rs => [|n IH] rs; first by rewrite muln0 => /size0nil ->; exists [::].
rewrite mulnS; case: rs => [|r1 [|r2 [|r3 rs]]] //= [srs].
have [v -> hvv] := gen_any_ok hr hP hU r1 r2 r3 (rs ++ rs') v0 hv.
have [vs /= -> [svs h]] := IH rs srs; exists (v :: vs) => //; split; first by rewrite /= svs.
case=> [|i] hi v'; first exact: hvv.
by rewrite mulnS; apply: h.
Qed.
Print Assumptions C80_any.

Definition U80 : seq (vdef [numFieldType of [realFieldType of rat]]) :=
  [:: VDef 1 [:: 0%N] [:: 0; 0]%N 2 1 (fun _ _ => 1 / 2%:R); VDef 1 [:: 0%N] [:: 0; 1]%N 2 1 (fun _ _ => 1 / 2%:R);
      VDef 1 [:: 0%N] [:: 1; 0]%N 2 1 (fun _ _ => 1 / 2%:R)].
(* random numbers are the fractions k/4 *)
Definition frac4 (k : nat) : rat := (k %% 4)%:R / 4%:R.
Definition idx4 (n k : nat) : nat := ((k %% 4) * n %/ 4)%N.
Example C80_case :
  [/\ forall n k, (0 < n)%N -> (idx4 n k < n)%N,
    gen_valid_pair (fun t => t == 0%N) idx4 U80 (fun k => win_time (win_new (3%:R / 4%:R) (1 / 2%:R) 1) (frac4 k))
      [:: (1, 2)%N] [:: 3; 1; 2; 3; 0]%N = Ok ([:: (1%N, 1%N, 7%:R / 8%:R, false, 0%N); (2%N, 0%N, 1 / 8%:R, false, 0%N)], [::]),
    gen_valid_pair (fun t => t == 0%N) idx4 U80 (fun k => win_time (win_new (3%:R / 4%:R) (1 / 2%:R) 1) (frac4 k))
      [:: (1, 0)%N] [:: 3; 1; 2; 3; 0]%N = Throw &
    gen_itime idx4 U80 (fun k => frac4 k) [:: 0; 1; 2]%N 2 [:: 3; 1; 2; 3; 3; 0]%N =
      Ok ([:: (0%N, 1%N, 3%:R / 4%:R, false, 0%N); (2%N, 0%N, 3%:R / 4%:R, false, 0%N)], [::])].
Proof.
split=> // n k n0; rewrite /idx4 ltn_divLR // mulnC ltn_pmul2l //; exact: ltn_pmod.
Qed.
