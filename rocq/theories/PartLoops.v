(* Proofs about the loops of the partitioned determinant matrix. *)
From mathcomp Require Import all_ssreflect ssralg ssrint fingroup perm matrix order zify.
From Verif Require Import Outcome SortModel SortSpec SortProofs MatLib BlockLib MatSpec
  ClusterModel ClusterSpec FormulaModel FormulaProofs DetMatModel DetMatSpec DetMatSide DetMatProofs
  DetMatCycles DetMatMain PartModel PartSpec PartSide.

Set Implicit Arguments.
Unset Strict Implicit.
Unset Printing Implicit Defensive.

Local Open Scope ring_scope.
Import GRing.Theory Order.TTheory.

Section Loops.
Variables (F : fieldType) (disp : unit) (T : orderType disp) (O : eqType) (tm : O -> T).
Variables (labels : seq nat) (fl : O -> nat) (ns : nat).
Notation sec := (sector_of labels fl).
Notation in_sector := (in_sector sec).
Notation sets_hold := (sets_hold sec ns).
Notation pinv := (pinv tm sec).
Implicit Types (s : sets O) (l : seq O) (o x y : O) (w : seq (seq O)) (p : F).
Notation inside := (all (fun x => sec x < ns)%N).

Lemma sets_hold_perm s l l' : perm_eq l l' -> sets_hold s l -> sets_hold s l'.
Proof.
move=> pe [h1 h2 h3]; split=> //; first exact: perm_trans h1 pe.
by move=> k kn; apply: perm_trans (h3 k kn) _; apply: perm_filter.
Qed.

Definition pushed w l w' : Prop := size w' = size w /\ forall k, nth [::] w' k = nth [::] w k ++ in_sector k l.

Lemma pushed_nil w : pushed w [::] w.
Proof. by split=> // k; rewrite cats0. Qed.

Lemma pushed_cons w o l w' : (sec o < size w)%N ->
  pushed (set_nth [::] w (sec o) (rcons (nth [::] w (sec o)) o)) l w' -> pushed w (o :: l) w'.
Proof.
move=> os [h1 h2]; split; first by rewrite h1 size_set_nth; apply/maxn_idPr.
move=> k; rewrite h2 nth_set_nth /= (eq_sym (sec o)).
by case: (eqVneq k (sec o)) => [->|ne] //=; rewrite cat_rcons.
Qed.

Lemma sign_loop_cons f o l w p s : sign_loop labels fl f (o :: l) w p s =
  sign_loop labels fl f l (set_nth [::] w (sec o) (rcons (nth [::] w (sec o)) o)) (p * (f o (sec o) s).1) (f o (sec o) s).2.
Proof. by []. Qed.

Lemma rem_notin o l l0 : uniq l -> [seq x <- rem o l | x \notin l0] = [seq x <- l | x \notin o :: l0].
Proof.
by move=> u; rewrite rem_filter // -filter_predI; apply: eq_filter => x /=; rewrite inE negb_or andbC.
Qed.

Lemma erase_loop_ok l0 w p s l : sets_hold s l -> uniq (map tm l) -> inside l -> uniq l0 ->
  {subset l0 <= l} -> (ns <= size w)%N ->
  exists w' p' s', [/\ sign_loop labels fl (@erase_sign_change F _ _ _ tm) l0 w p s = (w', p * p', s'),
    pushed w l0 w', sets_hold s' [seq o <- l | o \notin l0] &
    p' * (-1) ^+ pinv l = (-1) ^+ pinv [seq o <- l | o \notin l0]].
Proof.
elim: l0 w p s l => [|o l0 IH] w p s l h u al u0 sub nw.
  exists w, 1, s; rewrite filter_nil mulr1 mul1r; split=> //; exact: pushed_nil.
have ol : o \in l by apply: sub; rewrite inE eqxx.
have ul := map_uniq u.
have os : (sec o < ns)%N by move/allP: al; apply.
move: u0 => /= /andP [no u0].
set w1 := set_nth [::] w (sec o) (rcons (nth [::] w (sec o)) o).
have u' : uniq (map tm (rem o l)) by apply: (subseq_uniq (map_subseq tm (rem_subseq _ _)) u).
have al' : inside (rem o l) by apply/allP => x /mem_rem; move: x; exact/allP.
have sub' : {subset l0 <= rem o l}.
  move=> x xl; rewrite mem_rem_uniq // inE; apply/andP; split; first by apply: contraNneq no => <-.
  by apply: sub; rewrite inE xl orbT.
have zw : size w1 = size w by rewrite size_set_nth; apply/maxn_idPr; apply: leq_trans nw.
rewrite -zw in nw.
have [w' [p' [s' [e pu h' es]]]] := IH w1 (p * (erase_sign_change F tm o (sec o) s).1) _ _ (erase_hold F h u ol al) u' al' u0 sub' nw.
exists w', ((erase_sign_change F tm o (sec o) s).1 * p'), s'; rewrite sign_loop_cons e mulrA.
rewrite -(rem_notin o l0 ul); split=> //.
  by apply: pushed_cons => //; rewrite -zw; apply: leq_trans nw.
by rewrite -es -(erase_sign F h u al ol) mulrA [p' * _]mulrC.
Qed.

Lemma insert_loop_ok l0 w p s l : sets_hold s l -> uniq (map tm (l ++ l0)) -> inside (l ++ l0) ->
  (ns <= size w)%N ->
  exists w' p' s', [/\ sign_loop labels fl (@insert_sign_change F _ _ _ tm) l0 w p s = (w', p * p', s'),
    pushed w l0 w', sets_hold s' (l ++ l0) &
    p' * (-1) ^+ pinv l = (-1) ^+ pinv (l ++ l0)].
Proof.
elim: l0 w p s l => [|o l0 IH] w p s l h u al nw.
  exists w, 1, s; rewrite cats0 mulr1 mul1r; split=> //; exact: pushed_nil.
have pe : perm_eq ((o :: l) ++ l0) (l ++ o :: l0) by rewrite -cat1s -catA perm_catCA.
have u' : uniq (map tm ((o :: l) ++ l0)) by rewrite (perm_uniq (perm_map tm pe)).
have al' : inside ((o :: l) ++ l0) by rewrite (perm_all _ pe).
have os : (sec o < ns)%N by move: al' => /= /andP [].
have nin : tm o \notin map tm l.
  by move: u' => /= /andP []; rewrite map_cat mem_cat negb_or => /andP [].
have all_l : inside l by move: al; rewrite all_cat => /andP [].
set w1 := set_nth [::] w (sec o) (rcons (nth [::] w (sec o)) o).
have zw : size w1 = size w by rewrite size_set_nth; apply/maxn_idPr; apply: leq_trans nw.
rewrite -zw in nw.
have [w' [p' [s' [e pu h' es]]]] := IH w1 (p * (insert_sign_change F tm o (sec o) s).1) _ _ (insert_hold F h nin os) u' al' nw.
exists w', ((insert_sign_change F tm o (sec o) s).1 * p'), s'; rewrite sign_loop_cons e mulrA; split=> //.
- by apply: pushed_cons => //; rewrite -zw; apply: leq_trans nw.
- exact: sets_hold_perm pe h'.
by rewrite -(pinv_perm _ _ pe) -es -(insert_sign F h all_l nin os) mulrA [p' * _]mulrC.
Qed.

(* undoing *)
Definition rstep (f : O -> seq O -> seq O) s o : sets O :=
  Sets (f o (whole s)) (set_nth [::] (sectored s) (sec o) (f o (nth [::] (sectored s) (sec o)))).

Lemma revert_loopE f w s : (forall k, (k < ns)%N -> all (fun o => sec o == k) (nth [::] w k)) ->
  revert_loop f ns w s = foldl (rstep f) s (flatten [seq nth [::] w k | k <- iota 0 ns]).
Proof.
move=> h; rewrite /revert_loop.
have : all (fun k => all (fun o => sec o == k) (nth [::] w k)) (iota 0 ns).
  by apply/allP => k; rewrite mem_iota => /andP [_ kn]; apply: h.
elim: (iota 0 ns) s => [|k ks IH] s //= /andP [hk /IH ->]; rewrite foldl_cat; congr foldl.
elim: (nth [::] w k) s hk => [|o l IHl] s //= /andP [/eqP eo /IHl ->].
by rewrite /rstep eo.
Qed.

Lemma erase_list_ok l0 s l : sets_hold s l -> uniq (map tm l) -> inside l -> uniq l0 ->
  {subset l0 <= l} -> sets_hold (foldl (rstep (terase tm)) s l0) [seq o <- l | o \notin l0].
Proof.
elim: l0 s l => [|o l0 IH] s l h u al u0 sub; first by rewrite filter_nil.
have ol : o \in l by apply: sub; rewrite inE eqxx.
have ul := map_uniq u; move: u0 => /= /andP [no u0].
rewrite -(rem_notin o l0 ul); apply: IH => //.
- exact: (erase_hold F h u ol al).
- by apply: (subseq_uniq (map_subseq tm (rem_subseq _ _)) u).
- by apply/allP => x /mem_rem; move: x; exact/allP.
move=> x xl; rewrite mem_rem_uniq // inE; apply/andP; split; first by apply: contraNneq no => <-.
by apply: sub; rewrite inE xl orbT.
Qed.

Lemma insert_list_ok l0 s l : sets_hold s l -> uniq (map tm (l ++ l0)) -> inside (l ++ l0) ->
  sets_hold (foldl (rstep (tinsert tm)) s l0) (l ++ l0).
Proof.
elim: l0 s l => [|o l0 IH] s l h u al; first by rewrite cats0.
have pe : perm_eq ((o :: l) ++ l0) (l ++ o :: l0) by rewrite -cat1s -catA perm_catCA.
have u' : uniq (map tm ((o :: l) ++ l0)) by rewrite (perm_uniq (perm_map tm pe)).
have al' : inside ((o :: l) ++ l0) by rewrite (perm_all _ pe).
have os : (sec o < ns)%N by move: al' => /= /andP [].
have nin : tm o \notin map tm l.
  by move: u' => /= /andP []; rewrite map_cat mem_cat negb_or => /andP [].
apply: sets_hold_perm pe _; apply: IH => //.
exact: (insert_hold F h nin os).
Qed.

(* try, then reject: the sets hold the same operators *)
Lemma revert_ok s l r a wr wa : sets_hold s ([seq o <- l | o \notin r] ++ a) ->
  uniq (map tm ([seq o <- l | o \notin r] ++ a)) -> uniq (map tm l) -> uniq r -> {subset r <= l} ->
  inside l -> inside a ->
  (forall k, nth [::] wr k = in_sector k r) -> (forall k, nth [::] wa k = in_sector k a) ->
  sets_hold (revert_loop (tinsert tm) ns wr (revert_loop (terase tm) ns wa s)) l.
Proof.
move=> h u ul ur sub al aa er ea.
have ina k l' : all (fun o => sec o == k) (in_sector k l') by exact: filter_all.
rewrite !revert_loopE; last 2 first.
- by move=> k _; rewrite ea.
- by move=> k _; rewrite er.
have -> : [seq nth [::] wa k | k <- iota 0 ns] = [seq in_sector k a | k <- iota 0 ns].
  by apply: eq_map.
have -> : [seq nth [::] wr k | k <- iota 0 ns] = [seq in_sector k r | k <- iota 0 ns].
  by apply: eq_map.
set fa := flatten _; set fr := flatten _.
have pa : perm_eq fa a by apply: perm_trans (sectors_perm _ _ _) _; rewrite (all_filterP aa).
have ar : inside r by apply/allP => o /sub; move: o; exact/allP.
have pr : perm_eq fr r by apply: perm_trans (sectors_perm _ _ _) _; rewrite (all_filterP ar).
have ulu := map_uniq u.
have kept_in : inside [seq o <- l | o \notin r] by apply/allP => o; rewrite mem_filter => /andP [_]; move: o; exact/allP.
have h1 : sets_hold (foldl (rstep (terase tm)) s fa) [seq o <- l | o \notin r].
  apply: sets_hold_perm (erase_list_ok h u _ _ _).
  - rewrite perm_sym; apply: (@perm_kept _ _ a); rewrite // perm_sym //.
  - by rewrite all_cat kept_in.
  - by rewrite (perm_uniq pa); move: ulu; rewrite cat_uniq => /and3P [].
  - by move=> o; rewrite (perm_mem pa) mem_cat => ->; rewrite orbT.
have pl : perm_eq ([seq o <- l | o \notin r] ++ fr) l.
  have ull := map_uniq ul.
  apply: uniq_perm => //.
    rewrite cat_uniq filter_uniq //= (perm_uniq pr) ur andbT; apply/hasPn => o.
    by rewrite (perm_mem pr) => orr; rewrite /= mem_filter orr.
  move=> o; rewrite mem_cat mem_filter (perm_mem pr).
  by case: (boolP (o \in r)) => [/sub -> //|_] /=; rewrite orbF.
apply: (sets_hold_perm pl); apply: insert_list_ok => //.
  by rewrite (perm_uniq (perm_map tm pl)).
by rewrite (perm_all _ pl).
Qed.

End Loops.

Section SectorLoop.
Variables (F : fieldType) (disp : unit) (T : orderType disp) (CD C : eqType).
Notation dm := (dm F T CD C).
Variable d0 : dm.

Lemma sector_loop_ok (A : Type) (a0 : A) (f : nat -> dm -> dres F T CD C A) (P : nat -> dm -> A -> Prop) k ds :
  (forall s, (s < size ds)%N -> exists d' a, f (k + s)%N (nth d0 ds s) = DOk d' a /\ P (k + s)%N d' a) ->
  exists ds' xs, [/\ sector_loop f k ds = Ok (ds', xs), size ds' = size ds, size xs = size ds &
    forall s, (s < size ds)%N -> P (k + s)%N (nth d0 ds' s) (nth a0 xs s)].
Proof.
elim: ds k => [|d ds IH] k h /=; first by exists [::], [::].
have [d' [a [e p]]] := h 0%N isT; rewrite addn0 in e p.
have [s sl|ds' [xs [es z1 z2 ps]]] := IH k.+1.
  by rewrite addSnnS; apply: (h s.+1).
exists (d' :: ds'), (a :: xs); rewrite e es /= z1 z2; split=> //.
by move=> [|s] sl; rewrite ?addn0 //= -addSnnS; apply: ps.
Qed.

Lemma foldl_prod (l : seq F) : foldl *%R 1 l = \prod_(x <- l) x.
Proof.
have g : forall p, foldl *%R p l = p * \prod_(x <- l) x.
  elim: l => [|x l IH] p /=; first by rewrite big_nil mulr1.
  by rewrite IH big_cons mulrA.
by rewrite g mul1r.
Qed.

Lemma foldl_prod_nth (l : seq F) n : size l = n -> foldl *%R 1 l = \prod_(s < n) nth 0 l s.
Proof. by move=> <-; rewrite foldl_prod (big_nth 0) big_mkord. Qed.

End SectorLoop.
