(* Proofs about the determinant matrix: collisions and the order of calls. *)
From mathcomp Require Import all_ssreflect ssralg ssrint fingroup perm matrix order zify.
From Verif Require Import Outcome SortModel SortSpec SortProofs MatLib BlockLib MatSpec
  FormulaModel FormulaProofs RmatProofs DetMatModel DetMatSpec DetMatSide DetMatProofs
  DetMatCycles DetMatMain.

Set Implicit Arguments.
Unset Strict Implicit.
Unset Printing Implicit Defensive.

Local Open Scope ring_scope.
Import GRing.Theory Order.TTheory.

Section Protocol.
Variables (F : fieldType) (disp : unit) (T : orderType disp).
Variables (CD C : eqType) (tcd : CD -> T) (tc : C -> T) (cd0 : CD) (c0 : C).
Variable gf : C -> CD -> F.
Notation dm := (dm F T CD C).
Notation distinct_times := (@distinct_times _ T CD C tcd tc).
Notation holds := (@holds F _ T CD C tcd tc cd0 c0 gf).
Notation try_update := (try_update tcd tc cd0 c0 gf).
Notation perform_update := (perform_update tcd tc cd0 c0).
Notation reject_update := (reject_update tcd tc cd0 c0).
Implicit Types (d : dm) (x : conf CD C) (u : request CD C).

(* removing and adding onto a taken time *)
Theorem mixed_collision d x u : holds d x -> shape u -> mixed u ->
  uniq (rem_cd u) -> uniq (rem_c u) -> {subset rem_cd u <= x.1} -> {subset rem_c u <= x.2} ->
  ~~ distinct_times (after u x) ->
  exists d1, try_update (rem_cd u) (rem_c u) (add_cd u) (add_c u) d = DOk d1 0.
Proof.
move=> h; have [wt ok p1 p2] := holds_good h.
case: u => rcd rc acd ac sh /and4P [/= m1 m2 m3 m4] u1 u2 s1 s2.
have [zr za] : size rcd = size rc /\ size acd = size ac.
  by case/or3P: sh => [/andP [/eqP -> /eqP ->]|/and4P []|/and4P []] //=; rewrite ?(gtn_eqF m2) ?(gtn_eqF m1).
have [ua1 ua2 ua3] := unzip_take za; have [ur1 ur2 ur3] := unzip_take zr.
have s1' : {subset rcd <= ops (cds (co d))} by move=> o /s1; rewrite (perm_mem p1).
have s2' : {subset rc <= ops (ans (co d))} by move=> o /s2; rewrite (perm_mem p2).
set rs := take (size rcd) (zip rcd rc) in ur1 ur2 ur3 *.
set ps := take (size acd) (zip acd ac) in ua1 ua2 ua3 *.
have v1 : uniq (unzip1 rs) by rewrite ur1.
have v2 : uniq (unzip2 rs) by rewrite ur2.
have w1 : {subset unzip1 rs <= ops (cds (co d))} by rewrite ur1.
have w2 : {subset unzip2 rs <= ops (ans (co d))} by rewrite ur2.
have [u sub] := mem_distinct (ok_dis ok) v1 v2 w1 w2.
have ea : all (exist (co d)) (pair_times tcd tc rs).
  by apply/allP => t /sub; rewrite (existE _ (ok_cd ok) (ok_an ok)).
move=> dis.
have ex : removal_insertion_possible tcd tc (co d) rs ps = Some false.
  rewrite /removal_insertion_possible ea; congr Some; apply: contraNF dis.
  move=> /and3P [/allP al di _].
  rewrite uniq_pair_times /distinct_times /= ua1 ua2 in di.
  rewrite /distinct_times /after /= !map_cat.
  set kcd := filter _ _; set kc := filter _ _.
  rewrite (_ : uniq _ = uniq ((map tcd kcd ++ map tc kc) ++ (map tcd acd ++ map tc ac))); last first.
    by apply: perm_uniq; rewrite perm_catACA.
  have dx : distinct_times x.
    by rewrite [x]surjective_pairing -(distinct_perm tcd tc p1 p2); exact: ok_dis ok.
  rewrite cat_uniq di andbT; apply/andP; split.
    apply: subseq_uniq dx; rewrite /=; apply: cat_subseq; apply: map_subseq; exact: filter_subseq.
  apply/hasPn => t tin; apply/negP => tin'.
  have {}tin' : t \in map tcd kcd ++ map tc kc by exact: tin'.
  have pm := pair_times_perm tcd tc ps; rewrite ua1 ua2 in pm.
  have := al t; rewrite (perm_mem pm) => /(_ tin) /orP [].
    rewrite (existE _ (ok_cd ok) (ok_an ok)) mem_cat (perm_mem (perm_map tcd p1)) (perm_mem (perm_map tc p2)).
    move: tin'; rewrite mem_cat => /orP [] /mapP [o]; rewrite mem_filter => /andP [_ oin] ->.
      by rewrite map_f.
    by rewrite map_f ?orbT.
  rewrite (perm_mem (pair_times_perm tcd tc rs)) ur1 ur2.
  have [ua ub ne] := @distinct_split _ _ _ _ tcd tc x.1 x.2 dx.
  move: tin'; rewrite !mem_cat => /orP [] /mapP [o]; rewrite mem_filter => /andP [on oin] -> /orP [] /mapP [o' o'in e].
  - by move: on; rewrite (uniq_map_inj ua oin (s1 _ o'in) e) o'in.
  - by move: (ne _ _ oin (s2 _ o'in)); rewrite e eqxx.
  - by move: (ne _ _ (s1 _ o'in) oin); rewrite e eqxx.
  - by move: on; rewrite (uniq_map_inj ub oin (s2 _ o'in) e) o'in.
eexists; rewrite /DetMatModel.try_update /= !pairs_some // -za -zr addnC eqxx /=.
rewrite (gtn_eqF m3) (gtn_eqF m1) /= ?andbF -/rs -/ps /try_remove_add /= wt /= ex.
by [].
Qed.

(* a non-empty request while an update is pending *)
Theorem busy_try d u : st d <> waiting -> shape u -> nonempty u ->
  exists d1, [/\ try_update (rem_cd u) (rem_c u) (add_cd u) (add_c u) d = DThrow d1,
    co d1 = co d & st d1 = st d].
Proof.
move=> nw; have b : dstate_eqb (st d) waiting = false by case: (st d) nw.
case: u => rcd rc acd ac; rewrite /shape /nonempty /=.
case/or3P => [/andP [/eqP zr /eqP za]|/and4P [/eqP z1 /eqP z2 /eqP z3 /eqP z4]|/and4P [/eqP z1 /eqP z2 /eqP z3 /eqP z4]] ne.
- rewrite /DetMatModel.try_update !pairs_some // -zr -za addnC eqxx /=.
  rewrite /try_add /try_remove /try_remove_add /= b /=.
  move: ne; rewrite -zr -za.
  by case: (size acd) => [|[|?]]; case: (size rcd) => [|[|?]] //= _; eexists.
- by rewrite /DetMatModel.try_update z1 z2 z3 z4 /= /try_replace_cdagg /= b /=; eexists.
- by rewrite /DetMatModel.try_update z1 z2 z3 z4 /= /try_replace_c /= b /=; eexists.
Qed.

Lemma done_perform d d1 a : real_mode (w_mode (wk d)) -> perform_update d = DOk d1 a ->
  st d1 = waiting /\ w_mode (wk d1) = w_mode (wk d).
Proof.
rewrite /DetMatModel.perform_update; case e : (w_mode _) => [[]|] //= _.
- rewrite /perform_add; case: dstate_eqb => //=.
  case: (w_blocks _) => [[[[[n m] B] Cb] Db]|] //; case: (w_perm _) => // p.
  by case: inverse_matrix_up => // [[[n' a'] b']] [<- _] /=.
- rewrite /perform_remove; case: dstate_eqb => //=; case: (w_perm _) => // p.
  by case: inverse_matrix_down_last => // [[n' a']] [<- _] /=.
- rewrite /perform_replace_cdagg; case: dstate_eqb => //=.
  by case: (w_line _) => // l; case: (w_perm _) => // p; case: (w_cd _) => [[o n]|] // [<- _].
- rewrite /perform_replace_c; case: dstate_eqb => //=.
  by case: (w_line _) => // l; case: (w_perm _) => // p; case: (w_c _) => [[o n]|] // [<- _].
Qed.

Lemma done_reject d d1 a : real_mode (w_mode (wk d)) -> reject_update d = DOk d1 a ->
  st d1 = waiting /\ w_mode (wk d1) = w_mode (wk d).
Proof.
rewrite /DetMatModel.reject_update; case e : (w_mode _) => [[]|] //= _.
- by rewrite /reject_add; case: dstate_eqb => //=; case: remove_excess_operators => // c [<- _].
- rewrite /reject_remove; case: dstate_eqb => //=.
  by case: add_new_operators => [[p c]] [] // [<- _].
- by rewrite /reject_replace_cdagg; case: dstate_eqb => //= -[<- _].
- by rewrite /reject_replace_c; case: dstate_eqb => //= -[<- _].
Qed.

Lemma waiting_refuses d : real_mode (w_mode (wk d)) -> st d = waiting ->
  perform_update d = DThrow d /\ reject_update d = DThrow d.
Proof.
rewrite /DetMatModel.perform_update /DetMatModel.reject_update.
case: (w_mode _) => [[]|] //= _ w.
- by rewrite /perform_add /reject_add w.
- by rewrite /perform_remove /reject_remove w.
- by rewrite /perform_replace_cdagg /reject_replace_cdagg w.
- by rewrite /perform_replace_c /reject_replace_c w.
Qed.

Theorem call_once d d1 a : real_mode (w_mode (wk d)) ->
  perform_update d = DOk d1 a \/ reject_update d = DOk d1 a ->
  perform_update d1 = DThrow d1 /\ reject_update d1 = DThrow d1.
Proof.
move=> m [h|h].
  by have [w e] := done_perform m h; apply: waiting_refuses => //; rewrite e.
by have [w e] := done_reject m h; apply: waiting_refuses => //; rewrite e.
Qed.

(* rejecting twice is refused for remove-and-add as well *)
Theorem reject_once d d1 a : w_mode (wk d) = Some m_rem_add ->
  perform_update d = DOk d1 a \/ reject_update d = DOk d1 a -> reject_update d1 = DThrow d1.
Proof.
move=> e; rewrite /DetMatModel.perform_update /DetMatModel.reject_update e.
suff h : perform_remove_add d = DOk d1 a \/ reject_remove_add tcd tc d = DOk d1 a ->
   st d1 = waiting /\ w_mode (wk d1) = Some m_rem_add.
  by move=> /h [w ->]; rewrite /reject_remove_add w.
case.
  rewrite /perform_remove_add; case: (w_help _) => [[[n m] h]|] //; case: (w_blocks _) => [[[[[? ?] Q] R] S]|] //.
  case: replace_inverse_matrix => // [[n' a']]; case: dstate_eqb => //=.
  by case: (w_impossible _) => // -[[<- _]|] //; case: (w_perm _) => // p [<- _].
rewrite /reject_remove_add; case: dstate_eqb => //=; case: (w_added _) => // k.
case: remove_last_operators => // [[p c]]; case: add_new_operators => [[q c']] [] // [<- _].
by [].
Qed.

Lemma take_out_mode rs d d1 r : take_out tcd tc cd0 c0 rs d = DOk d1 r -> w_mode (wk d1) = w_mode (wk d).
Proof.
rewrite /take_out; case: rem_positions => // [[rc rr]]; case: ifP => // _.
by case: remove_last_operators => // [[p c]] [<- _].
Qed.

Lemma put_in_mode n k ps p d d1 r : put_in tcd tc cd0 c0 gf n k ps p d = DOk d1 r ->
  w_mode (wk d1) = w_mode (wk d).
Proof. by rewrite /put_in; case: add_new_operators => [[p' c]] [] //= [<- _]. Qed.

Lemma mixed_mode d d1 r u : shape u -> mixed u ->
  try_update (rem_cd u) (rem_c u) (add_cd u) (add_c u) d = DOk d1 r -> w_mode (wk d1) = Some m_rem_add.
Proof.
case: u => rcd rc acd ac sh /and4P [/= m1 m2 m3 m4].
have [zr za] : size rcd = size rc /\ size acd = size ac.
  by case/or3P: sh => [/andP [/eqP -> /eqP ->]|/and4P []|/and4P []] //=; rewrite ?(gtn_eqF m2) ?(gtn_eqF m1).
rewrite /DetMatModel.try_update !pairs_some // -za -zr addnC eqxx /=.
rewrite (gtn_eqF m3) (gtn_eqF m1) /= ?andbF /try_remove_add /=.
case: dstate_eqb => //=; case: removal_insertion_possible => // -[|[<- _]] //.
case: ifP => _; last by move/put_in_mode.
by case e : take_out => [d2 p||] //; have e2 := take_out_mode e; move/put_in_mode => ->; rewrite e2.
Qed.

(* performing a remove-and-add that has been rejected *)
Theorem late_perform d1 d2 d3 : w_mode (wk d1) = Some m_rem_add ->
  reject_update d1 = DOk d2 tt -> perform_update d1 = DOk d3 tt ->
  exists d4, [/\ perform_update d2 = DThrow d4, inv (co d4) = inv (co d3), sz (co d4) = sz (co d3),
    cds (co d4) = cds (co d2) & ans (co d4) = ans (co d2)].
Proof.
move=> e; rewrite {1 2}/DetMatModel.perform_update /DetMatModel.reject_update e.
move=> hr hp.
have [w2 s2] : wk d2 = wk d1 /\ st d2 = waiting.
  move: hr; rewrite /reject_remove_add; case: dstate_eqb => //=; case: (w_added _) => // k.
  by case: remove_last_operators => // [[p c]]; case: add_new_operators => [[q c']] [] // [<-].
rewrite /DetMatModel.perform_update w2 e /perform_remove_add w2 s2.
move: hp; rewrite /perform_remove_add; case: (w_help _) => [[[n m] h]|] //.
case: (w_blocks _) => [[[[[? ?] Q] R] S]|] //.
case: replace_inverse_matrix => // [[n' a']]; case: (dstate_eqb (st d1)) => //=.
case: (w_impossible _) => // -[[<-]|]; first by eexists.
by case: (w_perm _) => // p [<-]; eexists.
Qed.

End Protocol.
