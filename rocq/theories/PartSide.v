(* Proofs about the time-ordered sets of the partitioned determinant matrix. *)
From mathcomp Require Import all_ssreflect ssralg ssrint fingroup perm matrix order zify.
From Verif Require Import Outcome SortModel SortSpec SortProofs MatLib BlockLib MatSpec
  FormulaModel FormulaProofs DetMatModel DetMatSpec DetMatSide DetMatProofs PartModel PartSpec.

Set Implicit Arguments.
Unset Strict Implicit.
Unset Printing Implicit Defensive.

Local Open Scope ring_scope.
Import GRing.Theory Order.TTheory.

Section Side.
Variables (F : fieldType) (disp : unit) (T : orderType disp) (O : eqType) (tm : O -> T).
Variable sec : O -> nat.
Implicit Types (s : sets O) (l : seq O) (o x y : O).
Local Open Scope nat_scope.

Notation in_sector := (in_sector sec).
Notation grouped := (grouped tm sec).
Notation sets_hold := (sets_hold sec).

(* pairs of operators whose sector order and time order disagree *)
Definition pinv l : nat := \sum_(x <- l) count (fun y => (sec x < sec y) && (tm y < tm x)%O) l.
Definition cross o l : nat :=
  count (fun y => (sec o < sec y) && (tm y < tm o)%O) l +
  count (fun x => (sec x < sec o) && (tm o < tm x)%O) l.

Lemma pinv_cons o l : pinv (o :: l) = pinv l + cross o l.
Proof.
rewrite /pinv big_cons /= ltnn /= add0n /cross.
have -> : count (fun x => (sec x < sec o) && (tm o < tm x)%O) l =
    \sum_(j <- l) ((sec j < sec o) && (tm o < tm j)%O : nat).
  by rewrite -sum1_count big_mkcond /=; apply: eq_bigr => j _; case: (_ && _).
rewrite big_split /=; lia.
Qed.

Lemma pinv_perm l l' : perm_eq l l' -> pinv l = pinv l'.
Proof.
move=> pe; rewrite /pinv (perm_big _ pe) /=; apply: eq_bigr => x _.
by move/seq.permP: pe.
Qed.

Definition nops o l : nat :=
  count (fun x => ~~ (tm x < tm o)%O) l + count (fun x => sec o < sec x) l +
  count (fun x => (sec x == sec o) && ~~ (tm x < tm o)%O) l.

Lemma nops_cross o l : tm o \notin map tm l -> odd (nops o l) = odd (cross o l).
Proof.
rewrite /nops /cross; elim: l => [|x l IH] //=; rewrite inE negb_or => /andP [nx /IH].
rewrite !oddD => {}IH.
have -> : (tm o < tm x)%O = ~~ (tm x < tm o)%O.
  by rewrite -leNgt le_eqVlt (negbTE nx).
move: IH; case: (ltngtP (sec o) (sec x)) => h; case: (tm x < tm o)%O => //=; rewrite ?addbT ?addbF ?addTb ?addFb.
all: by case: (odd _); case: (odd _); case: (odd _); case: (odd _); case: (odd _).
Qed.

Lemma sum_sectors a m l :
  sumn [seq size (in_sector k l) | k <- iota a m] = count (fun x => (a <= sec x) && (sec x < a + m)) l.
Proof.
elim: m a => [|m IH] a /=.
  rewrite (@eq_count _ _ pred0) ?count_pred0 // => x /=.
  by rewrite addn0 ltnNge andbN.
rewrite IH size_filter -count_predUI [X in _ + X](@eq_count _ _ pred0) ?count_pred0 ?addn0; last first.
  by move=> x /=; case: eqP => // -> /=; rewrite ltnn.
by apply: eq_count => x /=; apply/idP/idP; lia.
Qed.

Lemma num_opsE ns o s l : sets_hold ns s l -> all (fun x => sec x < ns) l -> sec o < ns ->
  num_ops tm o (sec o) s = nops o l.
Proof.
case=> pw sz ps al os; rewrite /num_ops /nops; congr (_ + _ + _).
- by rewrite /tlower; move/seq.permP: pw => ->.
- have -> : map size (drop (sec o).+1 (sectored s)) =
      [seq size (in_sector k l) | k <- iota (sec o).+1 (ns - (sec o).+1)].
    apply: (@eq_from_nth _ 0); first by rewrite !size_map size_drop sz size_iota.
    rewrite size_map size_drop sz => i il.
    rewrite (nth_map [::]) ?size_drop ?sz // (nth_map 0) ?size_iota // nth_iota // nth_drop.
    by apply: perm_size; apply: ps; lia.
  rewrite sum_sectors; apply: eq_in_count => x xl /=.
  by move/allP: al => /(_ x xl); lia.
- rewrite /tlower; have := ps _ os => /seq.permP ->.
  by rewrite count_filter; apply: eq_count => x /=; rewrite andbC.
Qed.

Lemma erase_filter l l' o : uniq (map tm l) -> perm_eq l l' -> o \in l ->
  perm_eq (terase tm o l) (rem o l').
Proof.
move=> u pe ol; have ul := map_uniq u.
rewrite rem_filter -?(perm_uniq pe) //.
rewrite (_ : terase tm o l = filter (predC1 o) l); first exact: perm_filter.
apply: eq_in_filter => x xl /=; congr negb.
by apply/eqP/eqP => [e|->] //; apply: (uniq_map_inj u) => //.
Qed.

Lemma sector_erase l o k : uniq l ->
  in_sector k (rem o l) = if sec o == k then rem o (in_sector k l) else in_sector k l.
Proof.
move=> u; rewrite /in_sector rem_filter // -filter_predI.
case: (eqVneq (sec o) k) => [e|ne].
  by rewrite rem_filter ?filter_uniq // -filter_predI; apply: eq_filter => x /=; rewrite andbC.
apply: eq_filter => x /=; case: (eqVneq x o) => [->|//]; last by rewrite andbT.
by rewrite andbF (negbTE ne).
Qed.

Section Steps.
Variable ns : nat.

Lemma insert_hold o s l : sets_hold ns s l -> tm o \notin map tm l -> sec o < ns ->
  sets_hold ns (insert_sign_change F tm o (sec o) s).2 (o :: l).
Proof.
case=> pw sz ps nin os; split=> /=.
- by rewrite /tinsert (perm_mem (perm_map tm pw)) (negbTE nin) perm_cons.
- by rewrite size_set_nth sz; apply/maxn_idPr.
move=> k kn; rewrite nth_set_nth /=; have := ps _ kn.
case: (eqVneq k (sec o)) => [->|ne] pk //.
rewrite /tinsert ifN ?perm_cons //.
rewrite (perm_mem (perm_map tm pk)); apply: contra nin => /mapP [x]; rewrite mem_filter => /andP [_ xl] ->.
exact: map_f.
Qed.

Lemma erase_hold o s l : sets_hold ns s l -> uniq (map tm l) -> o \in l -> all (fun x => sec x < ns) l ->
  sets_hold ns (erase_sign_change F tm o (sec o) s).2 (rem o l).
Proof.
move=> [pw sz ps] u ol al; have ul := map_uniq u.
have os : sec o < ns by move/allP: al; apply.
split=> /=.
- by apply: erase_filter; rewrite ?(perm_uniq (perm_map tm pw)) ?(perm_mem pw).
- by rewrite size_set_nth sz; apply/maxn_idPr.
move=> k kn; rewrite nth_set_nth /= sector_erase //; have := ps _ kn.
case: (eqVneq k (sec o)) => [->|ne] pk //.
apply: erase_filter => //.
  rewrite (perm_uniq (perm_map tm pk)); exact: (subseq_uniq (map_subseq tm (filter_subseq _ _)) u).
by rewrite (perm_mem pk) mem_filter eqxx.
Qed.

Local Open Scope ring_scope.

Lemma insert_sign o s l : sets_hold ns s l -> all (fun x => sec x < ns)%N l -> tm o \notin map tm l ->
  (sec o < ns)%N ->
  (insert_sign_change F tm o (sec o) s).1 * (-1) ^+ pinv l = (-1) ^+ pinv (o :: l).
Proof.
move=> h al nin os; rewrite /= sign_of_diffE (num_opsE h al os) pinv_cons exprD mulrC.
by congr (_ * _); rewrite -signr_odd nops_cross // signr_odd.
Qed.

Lemma erase_sign o s l : sets_hold ns s l -> uniq (map tm l) -> all (fun x => sec x < ns)%N l -> o \in l ->
  (erase_sign_change F tm o (sec o) s).1 * (-1) ^+ pinv l = (-1) ^+ pinv (rem o l).
Proof.
move=> h u al ol; have os : (sec o < ns)%N by move/allP: al; apply.
have pe := perm_to_rem ol.
rewrite /= sign_of_diffE (num_opsE h al os) (pinv_perm pe) pinv_cons.
have -> : (-1) ^+ nops o l = (-1) ^+ cross o (rem o l) :> F.
  have nin : tm o \notin map tm (rem o l).
    by move: u; rewrite (perm_uniq (perm_map tm pe)) /= => /andP [].
  have -> : nops o l = (nops o (rem o l)).+2.
    rewrite /nops; move/seq.permP: pe => pe; rewrite !pe /= ltxx ltnn eqxx /=; lia.
  by rewrite -signr_odd /= negbK nops_cross // signr_odd.
by rewrite exprD mulrCA -expr2 sqrr_sign mulr1.
Qed.

End Steps.

(* grouped order *)
Lemma sectors_perm n l : perm_eq (flatten [seq in_sector k l | k <- iota 0 n]) [seq o <- l | (sec o < n)%N].
Proof.
elim: n => [|n IH]; first by rewrite (eq_filter (a2 := pred0)) ?filter_pred0.
rewrite -addn1 iotaD map_cat flatten_cat add0n /= cats0 addn1.
rewrite perm_sym -(perm_filterC (fun o => sec o < n)%N [seq o <- l | (sec o < n.+1)%N]) -!filter_predI perm_sym.
apply: perm_cat; first by rewrite (eq_filter (a2 := (fun o => sec o < n)%N)) // => x /=; lia.
rewrite /PartSpec.in_sector; set a := [seq _ <- _ | _]; set b := [seq _ <- _ | _].
by have -> : a = b by apply: eq_filter => x /=; lia.
Qed.

Lemma grouped_perm n l : all (fun x => sec x < n)%N l -> perm_eq (grouped n l) l.
Proof.
move=> al; apply: (@perm_trans _ (flatten [seq in_sector k l | k <- iota 0 n])).
  rewrite /PartSpec.grouped; elim: (iota 0 n) => [|k ks IH] //=.
  by apply: perm_cat IH; apply: order_perm.
apply: perm_trans (sectors_perm _ _) _.
by rewrite (all_filterP al).
Qed.

Definition lex x y := (sec x < sec y)%N || (sec x == sec y) && (tm x < tm y)%O.

Lemma grouped_pairwise n l : uniq (map tm l) -> pairwise lex (grouped n l).
Proof.
move=> u; rewrite /PartSpec.grouped.
elim: n => [|n IH] //; rewrite -addn1 iotaD map_cat flatten_cat add0n /= cats0 pairwise_cat IH /=.
apply/andP; split.
  apply/allrelP => x y /flattenP [s /mapP [k]]; rewrite mem_iota => /andP [_ kn] -> .
  rewrite !(perm_mem (order_perm tm _)) !mem_filter => /andP [/eqP ex _] /andP [/eqP ey _].
  by rewrite /lex ex ey; move: kn; rewrite add0n => ->.
have us : uniq (map tm (in_sector n l)) by apply: (subseq_uniq (map_subseq tm (filter_subseq _ _)) u).
have := order_sorted us; rewrite (sorted_pairwise (@lt_trans _ _)) pairwise_map.
have al : all (fun x => sec x == n) (in_time_order tm (in_sector n l)).
  by apply/allP => x; rewrite (perm_mem (order_perm tm _)) mem_filter => /andP [].
apply: (sub_in_pairwise _ al) => x y /eqP ex /eqP ey; rewrite /= /lex ex ey eqxx => ->.
by rewrite orbT.
Qed.

Lemma inv_pairwise l : pairwise lex l -> inversions (fun s t : T => (s < t)%O) (map tm l) = pinv l.
Proof.
elim: l => [|x l IH] /=; first by rewrite /pinv big_nil.
move=> /andP [/allP al /IH e]; rewrite e pinv_cons addnC; congr (_ + _)%N.
rewrite count_map /cross; set a := count _ _.
rewrite [X in (_ + X)%N](@eq_in_count _ _ pred0) ?count_pred0 ?addn0; last first.
  move=> y yl /=; have := al y yl; rewrite /lex; case: ltngtP => //= _ /andP [/eqP -> _]; rewrite ltnn //.
apply: eq_in_count => y yl /=; have := al y yl; rewrite /lex; case: ltngtP => //= _.
by move=> /lt_gtF.
Qed.

Lemma regroupE n l : uniq (map tm l) -> all (fun x => sec x < n)%N l ->
  regroup_sign F tm sec n l = (-1) ^+ pinv l.
Proof.
move=> u al; rewrite /regroup_sign inv_pairwise ?grouped_pairwise //.
by rewrite (pinv_perm (grouped_perm al)).
Qed.

Local Open Scope ring_scope.

Theorem set_history_ok ns s l s2 l2 (p : F) : set_history tm sec ns s l s2 l2 p ->
  sets_hold ns s l -> uniq (map tm l) -> all (fun x => sec x < ns)%N l ->
  [/\ sets_hold ns s2 l2, uniq (map tm l2) &
      p * regroup_sign F tm sec ns l = regroup_sign F tm sec ns l2].
Proof.
move=> hi h u al; suff [h1 h2 h3 h4] : [/\ sets_hold ns s2 l2, uniq (map tm l2),
    all (fun x => sec x < ns)%N l2 & p * (-1) ^+ pinv l = (-1) ^+ pinv l2].
  by rewrite !regroupE.
elim: hi h u al => {s l s2 l2 p}.
- by move=> s l h u al; rewrite mul1r.
- move=> s l o s2 l2 p nin os r _ IH h u al.
  have [] := IH (insert_hold h nin os); rewrite /= ?nin ?u ?os ?al //.
  by move=> h1 h2 h3 e; split=> //; rewrite -e -(insert_sign h al nin os) mulrA [p * _]mulrC.
- move=> s l o s2 l2 p ol r _ IH h u al.
  have u' : uniq (map tm (rem o l)) by apply: (subseq_uniq (map_subseq tm (rem_subseq _ _)) u).
  have al' : all (fun x => sec x < ns)%N (rem o l) by apply/allP => x /mem_rem; move: x; exact/allP.
  have [h1 h2 h3 e] := IH (erase_hold h u ol al) u' al'.
  by split=> //; rewrite -e -(erase_sign h u al ol) mulrA [p * _]mulrC.
Qed.

End Side.
