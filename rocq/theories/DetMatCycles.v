(* Proofs about the determinant matrix: the update cycles. *)
From mathcomp Require Import all_ssreflect ssralg ssrint fingroup perm matrix order zify.
From Verif Require Import Outcome SortModel SortSpec SortProofs MatLib BlockLib MatSpec
  FormulaModel FormulaProofs RmatProofs DetMatModel DetMatSpec DetMatSide DetMatProofs.

Set Implicit Arguments.
Unset Strict Implicit.
Unset Printing Implicit Defensive.

Local Open Scope ring_scope.
Import GRing.Theory Order.TTheory.

Lemma perm_kept (A : eqType) (a r l rem : seq A) : perm_eq (a ++ r) l -> uniq l ->
  perm_eq r rem -> perm_eq a [seq x <- l | x \notin rem].
Proof.
move=> pe u pr; have u' : uniq (a ++ r) by rewrite (perm_uniq pe).
apply: uniq_perm; first by move: u'; rewrite cat_uniq => /and3P [].
  exact: filter_uniq.
move=> x; rewrite mem_filter -(perm_mem pe) mem_cat -(perm_mem pr).
move: u'; rewrite cat_uniq => /and3P [_ /hasPn dis _].
have : x \in r -> x \notin a by move/dis.
by case: (x \in a); case: (x \in r) => // /(_ isT).
Qed.

Lemma rev_zip_last (A B : Type) (x0 : A) (y0 : B) (a ra : seq A) (b rb : seq B) n k :
  size a = size b -> size ra = k -> size rb = k -> (size a + k)%N = n ->
  [seq (nth x0 (a ++ ra) (n - 1 - i), nth y0 (b ++ rb) (n - 1 - i)) | i <- iota 0 k] =
  rev (zip ra rb).
Proof.
move=> zab za zb zn; apply: (@eq_from_nth _ (x0, y0)).
  by rewrite size_map size_iota size_rev size_zip za zb minnn.
move=> i; rewrite size_map size_iota => il.
rewrite (nth_map 0%N) ?size_iota // nth_iota // add0n nth_rev ?size_zip ?za ?zb ?minnn //.
have h1 : (n - 1 - i < size a)%N = false by lia.
have h2 : (n - 1 - i - size a = k - i.+1)%N by lia.
by rewrite nth_zip ?za ?zb // !nth_cat -zab h1 h2.
Qed.

Section Cycles.
Variables (F : fieldType) (disp : unit) (T : orderType disp).
Variables (CD C : eqType) (tcd : CD -> T) (tc : C -> T) (cd0 : CD) (c0 : C).
Variable gf : C -> CD -> F.
Notation core := (core F T CD C).
Notation dm := (dm F T CD C).
Notation weight := (weight tcd tc cd0 c0 gf).
Notation compute_g := (compute_g cd0 c0 gf).
Notation distinct_times := (@distinct_times _ T CD C tcd tc).
Notation ok_core := (ok_core tcd tc cd0 c0 gf).
Notation sgn2 := (@sgn2 F _ _ _ _ tcd tc).
Notation gmat := (gmat cd0 c0 gf).
Implicit Types (c : core) (d : dm) (a : seq CD) (b : seq C) (ps rs : seq (CD * C)).

Lemma ok_core_ext n c c' : ok_core n c -> sz c' = sz c -> inv c' = inv c -> perm c' = perm c ->
  side_ok tcd n (cds c') -> side_ok tc n (ans c') ->
  ops (cds c') = ops (cds c) -> ops (ans c') = ops (ans c) -> ok_core n c'.
Proof.
move=> [h1 h2 h3 h4 h5 h6] e1 e2 e3 s1 s2 e4 e5; split=> //.
- by rewrite e1.
- by rewrite e4 e5.
- by rewrite e2 /compute_g e4 e5.
- by rewrite e3 h6 e4 e5.
Qed.

Lemma add_new_ok n c ps : side_ok tcd n (cds c) -> side_ok tc n (ans c) ->
  distinct_times (ops (cds c) ++ unzip1 ps, ops (ans c) ++ unzip2 ps) ->
  exists p c1, [/\ add_new_operators tcd tc ps c = (p, c1, true),
    side_ok tcd (n + size ps) (cds c1) /\ side_ok tc (n + size ps) (ans c1),
    ops (cds c1) = ops (cds c) ++ unzip1 ps /\ ops (ans c1) = ops (ans c) ++ unzip2 ps,
    sgn2 (ops (cds c1)) (ops (ans c1)) = sgn2 (ops (cds c)) (ops (ans c)) * p &
    [/\ sz c1 = sz c, inv c1 = inv c & perm c1 = perm c]].
Proof.
move=> s1 s2 /distinct_split [u1 u2 _].
have [k [s' [e ok1 ok2 [o1 o2] i]]] := @add_loop_ok _ _ _ _ tcd tc n ps 0 (cds c, ans c) s1 s2 u1 u2.
eexists _, _; split; first by rewrite /add_new_operators e.
- by [].
- by [].
- by rewrite sign_of_diffE; apply: sgn2_odd; rewrite /= i /= !oddD.
- by [].
Qed.

Definition good n d a b : Prop :=
  [/\ st d = waiting, ok_core n (co d), perm_eq (ops (cds (co d))) a & perm_eq (ops (ans (co d))) b].

Lemma uniq_pair_times ps : uniq (pair_times tcd tc ps) = distinct_times (unzip1 ps, unzip2 ps).
Proof. by rewrite (perm_uniq (pair_times_perm tcd tc ps)). Qed.

Lemma existE n c t : side_ok tcd n (cds c) -> side_ok tc n (ans c) ->
  exist c t = (t \in map tcd (ops (cds c)) ++ map tc (ops (ans c))).
Proof.
by move=> s1 s2; rewrite /exist mem_cat (perm_mem (side_keys s1)) (perm_mem (side_keys s2)) orbC.
Qed.

Lemma distinct_cat a b a' b' : distinct_times (a ++ a', b ++ b') ->
  [/\ distinct_times (a, b), distinct_times (a', b') &
   forall t, t \in map tcd a' ++ map tc b' -> t \notin map tcd a ++ map tc b].
Proof.
rewrite /distinct_times /= !map_cat.
rewrite (_ : uniq _ = uniq ((map tcd a ++ map tc b) ++ (map tcd a' ++ map tc b'))); last first.
  by apply: perm_uniq; rewrite perm_catACA.
by rewrite cat_uniq => /and3P [-> /hasPn h ->]; split.
Qed.

Lemma insertion_possible_ok n c ps : side_ok tcd n (cds c) -> side_ok tc n (ans c) ->
  distinct_times (ops (cds c) ++ unzip1 ps, ops (ans c) ++ unzip2 ps) ->
  insertion_possible tcd tc c ps.
Proof.
move=> s1 s2 /distinct_cat [_ dis h]; rewrite /insertion_possible uniq_pair_times dis andbT.
apply/allP => t; rewrite (perm_mem (pair_times_perm tcd tc ps)) (existE _ s1 s2).
exact: h.
Qed.

(* the grown matrix *)
Lemma gmat_bordered n m c : size (ops (cds c)) = (n + m)%N -> size (ops (ans c)) = (n + m)%N ->
  feq (n + m) (n + m) (bordered n (compute_g c) (fun i j => compute_g c i (n + j)%N)
      (fun i j => compute_g c (n + i)%N j) (fun i j => compute_g c (n + i)%N (n + j)%N))
    (compute_g c).
Proof.
move=> _ _ i j il jl; rewrite /bordered.
by case: ltnP => hi; case: ltnP => hj; rewrite ?subnKC.
Qed.

Lemma compute_g_cat n c a b : size (ops (cds c)) = n -> size (ops (ans c)) = n ->
  feq n n (gmat (ops (cds c) ++ a) (ops (ans c) ++ b)) (compute_g c).
Proof. by move=> z1 z2 i j il jl; rewrite /gmat /compute_g !nth_cat z1 z2 il jl. Qed.

Definition Ok_cycle (try : dm -> dres F T CD C F) (perform reject : dm -> dres F T CD C unit)
    (d : dm) n a b n' a' b' (exact : F -> Prop) (extra : F -> Prop) : Prop :=
  exists d1 r, [/\ try d = DOk d1 r, w_mode (wk d1) = w_mode (wk d) /\ extra r,
    (exists d2, reject d1 = DOk d2 tt /\ good n d2 a b),
    exact r -> weight (a', b') = r * weight (a, b) &
    r != 0 -> weight (a', b') = r * weight (a, b) /\
              exists d3, perform d1 = DOk d3 tt /\ good n' d3 a' b'].

Lemma add_cycle n d ps : st d = waiting -> ok_core n (co d) -> (0 < size ps)%N ->
  let a := ops (cds (co d)) in let b := ops (ans (co d)) in
  distinct_times (a ++ unzip1 ps, b ++ unzip2 ps) ->
  Ok_cycle (try_add tcd tc cd0 c0 gf ps) (@perform_add _ _ _ _ _) (reject_add tcd tc cd0 c0)
    d n a b (n + size ps) (a ++ unzip1 ps) (b ++ unzip2 ps) (fun _ => True) (fun _ => True).
Proof.
move=> wt ok ps0 a b dis.
have [z scd san dis0 iv pe] := ok.
have [p [c1 [ea [s1 s2] [o1 o2] sg [z1 i1 p1]]]] := add_new_ok scd san dis.
have ip := insertion_possible_ok scd san dis.
rewrite /Ok_cycle /try_add wt ip ea /=.
have za1 : size (ops (cds c1)) = (n + size ps)%N by case: s1.
have zb1 : size (ops (ans c1)) = (n + size ps)%N by case: s2.
have za : size a = n by case: scd.
have zb : size b = n by case: san.
have [ua ub _] := distinct_split dis.
have ivA : inverse_of n (compute_g c1) (inv (co d)).
  apply: inverse_of_ext iv; last exact: feq_refl.
  move=> i j il jl; apply/esym.
  by have := compute_g_cat (unzip1 ps) (unzip2 ps) za zb il jl; rewrite /compute_g o1 o2.
have ga : feq n n (compute_g c1) (compute_g (co d)).
  by move=> i j il jl; have := compute_g_cat (unzip1 ps) (unzip2 ps) za zb il jl; rewrite /compute_g o1 o2.
have bo := gmat_bordered za1 zb1.
set B := fun i j => compute_g c1 i (n + j)%N in bo *.
set Cb := fun i j => compute_g c1 (n + i)%N j in bo *.
set Db := fun i j => compute_g c1 (n + i)%N (n + j)%N in bo *.
have ratio : weight (a ++ unzip1 ps, b ++ unzip2 ps) =
    p * det_ratio_up n (size ps) B Cb Db (inv (co d)) * weight (a, b).
  have w1 := ok_weight ok; rewrite -/a -/b in w1.
  rewrite w1 -o1 -o2 (weight_storage cd0 c0 gf za1 zb1); last by rewrite o2.
    have -> : det_of (n + size ps) (gmat (ops (cds c1)) (ops (ans c1))) =
        det_of (n + size ps) (bordered n (compute_g c1) B Cb Db).
      by rewrite !det_ofE -(fdet_ext bo).
    rewrite (det_ratio_up_ok (size ps) B Cb Db ivA) sg -pe.
    rewrite [det_of n (compute_g c1)]det_ofE (fdet_ext ga) det_ofE.
    by rewrite -!mulrA mulrCA; congr (_ * _); rewrite mulrCA.
  by rewrite o1.
eexists _, _; rewrite z; split; first by reflexivity.
- by [].
- rewrite /reject_add /= /remove_excess_operators z1 z.
  have zk : size (pos (cds c1)) = (n + size ps)%N.
    have := perm_size (side_keys s1); rewrite !size_map => ->; exact: za1.
  rewrite zk za1 zb1 addKn ltnn andbF.
  eexists; split; first by reflexivity.
  have [ok1 e1] := excess_ok cd0 s1 za (ex_intro _ _ o1).
  have [ok2 e2] := excess_ok c0 s2 zb (ex_intro _ _ o2).
  split; rewrite ?[st _]/= ?[co _]/= ?[cds _]/= ?[ans _]/= ?e1 ?e2 //.
  exact: (ok_core_ext ok).
- by [].
move=> rnz; split=> //.
have drnz : det_ratio_up n (size ps) B Cb Db (inv (co d)) != 0.
  by apply: contraNneq rnz => ->; rewrite mulr0.
have dnz : det_of (n + size ps) (bordered n (compute_g c1) B Cb Db) != 0.
  rewrite (det_ratio_up_ok (size ps) B Cb Db ivA) mulf_neq0 //.
  exact: inverse_of_unit ivA.
have [res [r' [er ir _]]] := inverse_up_ok ps0 ivA dnz.
rewrite /perform_add /= i1 er.
eexists; split; first by reflexivity.
split=> //=; [| by rewrite o1 | by rewrite o2].
split=> //=.
- by rewrite o1 o2.
- by apply: inverse_of_ext ir => //; exact: feq_refl.
- by rewrite p1 pe sg.
Qed.

(* ---- taking operators out ---- *)

Lemma positions_ok (O : eqType) (tm : O -> T) n (s : side T O) (r : seq O) :
  side_ok tm n s -> uniq r -> {subset r <= ops s} ->
  let f := [seq mfind (tm o) (pos s) | o <- r] in
  all isSome f /\
  let l := sort leq (pmap id f) in
  [/\ sorted ltn l, all (fun p => p < n)%N l & perm_eq l [seq index o (ops s) | o <- r]].
Proof.
move=> ok u sub f.
have ef : f = [seq Some (index o (ops s)) | o <- r].
  by apply/eq_in_map => o /sub oin; rewrite (side_find o ok).
have ep : pmap id f = [seq index o (ops s) | o <- r].
  by rewrite ef map_comp; elim: (map _ r) => //= x l ->.
split; first by rewrite ef; apply/allP => x /mapP [o _ ->].
have zn : size (ops s) = n by case: ok.
have pl : perm_eq (sort leq (pmap id f)) [seq index o (ops s) | o <- r] by rewrite perm_sort ep.
split=> //.
- rewrite ltn_sorted_uniq_leq sort_sorted ?andbT; last exact: leq_total.
  rewrite (perm_uniq pl) map_inj_in_uniq // => x y /sub xl /sub yl e.
  by rewrite -(nth_index x xl) e nth_index.
- rewrite (perm_all _ pl); apply/allP => k /mapP [o /sub oin ->].
  by rewrite -zn index_mem.
Qed.

Lemma moved_ok (O : eqType) (o0 : O) n (l r : seq O) (ix : seq nat) : size l = n -> uniq l -> {subset r <= l} ->
  sorted ltn ix -> all (fun p => p < n)%N ix -> perm_eq ix [seq index o l | o <- r] ->
  let l1 := [seq nth o0 l i | i <- exchange_all (iota 0 n) (exchanges_to_end n ix)] in
  exists (a' r' : seq O), [/\ l1 = a' ++ r', size a' = (n - size r)%N, size r' = size r,
    perm_eq r' r & perm_eq (a' ++ r') l].
Proof.
move=> zl ul sub so lt pe l1; have [p1 p2 _] := exchanges_to_end_ok so lt.
have zi : size ix = size r by rewrite (perm_size pe) size_map.
have sle : (size r <= n)%N by rewrite -zi; apply: size_le => //; apply: sorted_ltn_uniq.
set L := exchange_all _ _ in p1 p2 l1 *.
have zL : size L = n by rewrite (perm_size p1) size_iota.
exists (take (n - size r) l1), (drop (n - size r) l1).
have zl1 : size l1 = n by rewrite size_map.
split; first by rewrite cat_take_drop.
- by rewrite size_takel // zl1 leq_subr.
- by rewrite size_drop zl1 subKn.
- rewrite /l1 -map_drop -zi p2.
  apply: perm_trans (perm_map _ pe) _; rewrite -map_comp.
  rewrite (_ : map _ r = r) // -[RHS]map_id; apply/eq_in_map => o /sub oin.
  by rewrite /= nth_index.
- rewrite cat_take_drop /l1; apply: perm_trans (perm_map _ p1) _.
  by rewrite -zl -/(mkseq _ _) mkseq_nth.
Qed.

Lemma erase_sets_ok n c a b ra rb : 
  side_ok tcd n (cds c) -> side_ok tc n (ans c) -> size ra = size rb ->
  ops (cds c) = a ++ ra -> ops (ans c) = b ++ rb ->
  side_ok' tcd n (cds (erase_sets (rev (zip ra rb)) c)) ra /\
  side_ok' tc n (ans (erase_sets (rev (zip ra rb)) c)) rb.
Proof.
move=> [z1 u1 po1 pp1] [z2 u2 po2 pp2] zz e1 e2; rewrite /erase_sets /=.
split; split=> //=.
- rewrite (foldl_serase1 (fun p : CD * C => p.1)) (perm_trans (perm_filter _ po1)) //.
  rewrite (@eq_filter _ _ (fun o => o \notin ra)) // => x.
  by rewrite map_rev mem_rev -/unzip1 unzip1_zip ?zz.
- rewrite (foldl_serase1 (fun p : CD * C => p.2)) (perm_trans (perm_filter _ po2)) //.
  rewrite (@eq_filter _ _ (fun o => o \notin rb)) // => x.
  by rewrite map_rev mem_rev -/unzip2 unzip2_zip ?zz.
Qed.

Lemma side_ok_gone (O : eqType) (tm : O -> T) n (s : side T O) gone :
  side_ok' tm n s gone -> (forall x, x \in ops s -> x \notin gone) -> side_ok tm n s.
Proof.
case=> z u po pp h; split=> //; apply: perm_trans po _.
by rewrite (_ : [seq _ <- _ | _] = ops s) //; apply/all_filterP/allP.
Qed.

Lemma take_out_ok n d rs : ok_core n (co d) -> uniq (unzip1 rs) -> uniq (unzip2 rs) ->
  {subset unzip1 rs <= ops (cds (co d))} -> {subset unzip2 rs <= ops (ans (co d))} ->
  exists c1 a b ra rb p d2,
  [/\ take_out tcd tc cd0 c0 rs d = DOk d2 p,
      ok_core n c1 /\ [/\ ops (cds c1) = a ++ ra, ops (ans c1) = b ++ rb,
        perm_eq (a ++ ra) (ops (cds (co d))) & perm_eq (b ++ rb) (ops (ans (co d)))],
      [/\ size a = (n - size rs)%N, size b = (n - size rs)%N, (size rs <= n)%N,
          perm_eq ra (unzip1 rs) & perm_eq rb (unzip2 rs)],
      [/\ st d2 = st d, w_removed (wk d2) = rev (zip ra rb), w_perm (wk d2) = Some p,
          w_mode (wk d2) = w_mode (wk d) & w_impossible (wk d2) = w_impossible (wk d)] &
      [/\ [/\ sz (co d2) = n, inv (co d2) = inv c1 & perm (co d2) = perm c1],
          side_ok tcd (n - size rs) (cds (co d2)), side_ok tc (n - size rs) (ans (co d2)),
          ops (cds (co d2)) = a /\ ops (ans (co d2)) = b & sgn2 a b = perm c1 * p]].
Proof.
move=> ok u1 u2 sub1 sub2.
have [f1 [so1 lt1 pe1]] := positions_ok (ok_cd ok) u1 sub1.
have [f2 [so2 lt2 pe2]] := positions_ok (ok_an ok) u2 sub2.
set l1 := sort leq _ in so1 lt1 pe1; set l2 := sort leq _ in so2 lt2 pe2.
have k1 : size (unzip1 rs) = size rs by rewrite size_map.
have k2 : size (unzip2 rs) = size rs by rewrite size_map.
have z1 : size l1 = size rs by rewrite (perm_size pe1) !size_map.
have z2 : size l2 = size rs by rewrite (perm_size pe2) !size_map.
have zz : size l1 = size l2 by rewrite z1 z2.
have [ok1 o1 o2] := swap_loop_ok ok zz lt1 lt2.
have n1 : size (ops (cds (co d))) = n by case: (ok_cd ok).
have n2 : size (ops (ans (co d))) = n by case: (ok_an ok).
have [a [ra [ea za zra pra pla]]] := moved_ok cd0 n1 (side_uniq (ok_cd ok)) sub1 so1 lt1 pe1.
have [b [rb [eb zb zrb prb plb]]] := moved_ok c0 n2 (side_uniq (ok_an ok)) sub2 so2 lt2 pe2.
rewrite -o1 in ea; rewrite -o2 in eb; rewrite k1 in za zra; rewrite k2 in zb zrb.
set c1 := swap_loop _ _ _ _ _ _ _ _ in ok1 o1 o2 ea eb.
have sle : (size rs <= n)%N by rewrite -z1; apply: size_le => //; apply: sorted_ltn_uniq.
have lp : last_pairs cd0 c0 n (size rs) c1 = rev (zip ra rb).
  by rewrite /last_pairs ea eb; apply: rev_zip_last; rewrite ?za ?zb ?subnK.
have zr : size ra = size rb by rewrite zra zrb.
have [s1 s2] := erase_sets_ok (ok_cd ok1) (ok_an ok1) zr ea eb.
set c2 := erase_sets _ c1 in s1 s2.
have x1 : exists a', ops (cds c2, ans c2).1 = a ++ a' by exists ra.
have x2 : exists b', ops (cds c2, ans c2).2 = b ++ b' by exists rb.
rewrite -(subnK sle) in s1 s2.
have [m [s' [er s1' s2' [oa ob] i]]] := @remove_loop_ok _ _ _ _ tcd tc _ _ 0 (cds c2, ans c2) ra rb a b s1 s2 za zb x1 x2.
exists c1, a, b, ra, rb; eexists _, _; split.
- rewrite /take_out /rem_positions.
  rewrite -[X in all isSome X && _]/([seq mfind (tcd (fst p)) (pos (cds (co d))) | p <- rs]).
  have -> : [seq mfind (tcd p.1) (pos (cds (co d))) | p <- rs] = [seq mfind (tcd o) (pos (cds (co d))) | o <- unzip1 rs].
    by rewrite -map_comp.
  have -> : [seq mfind (tc p.2) (pos (ans (co d))) | p <- rs] = [seq mfind (tc o) (pos (ans (co d))) | o <- unzip2 rs].
    by rewrite -map_comp.
  rewrite f1 f2 /= -/l1 -/l2 (ok_sz ok) ltnNge sle /= -/c1 lp -/c2 /remove_last_operators.
  have -> : (size (ops (cds c2)) < size rs)%N = false.
    by apply/negbTE; rewrite -leqNgt /c2 /= ea size_cat zra leq_addl.
  by rewrite er.
- by split=> //; rewrite -ea -eb ?ea ?eb.
- by split.
- by split.
- split=> //=.
  + by split=> //; exact: (ok_sz ok1).
  + apply: (side_ok_gone s1') => x; rewrite oa => xa.
    have := side_uniq (ok_cd ok1); rewrite ea cat_uniq => /and3P [_ /hasPn h _].
    by apply/negP => /h /negP; apply.
  + apply: (side_ok_gone s2') => x; rewrite ob => xb.
    have := side_uniq (ok_an ok1); rewrite eb cat_uniq => /and3P [_ /hasPn h _].
    by apply/negP => /h /negP; apply.
  + rewrite sign_of_diffE (ok_perm ok1) ea eb; apply: sgn2_odd; rewrite i /= ea eb.
    by rewrite -ea -eb.
Qed.

Lemma mem_distinct rs a b : distinct_times (a, b) -> uniq (unzip1 rs) -> uniq (unzip2 rs) ->
  {subset unzip1 rs <= a} -> {subset unzip2 rs <= b} ->
  uniq (pair_times tcd tc rs) /\ {subset pair_times tcd tc rs <= map tcd a ++ map tc b}.
Proof.
move=> /distinct_split [ua ub ne] u1 u2 s1 s2; split.
  rewrite uniq_pair_times /distinct_times /= cat_uniq.
  have -> : uniq (map tcd (unzip1 rs)).
    by rewrite map_inj_in_uniq // => x y /s1 xa /s1 ya; apply: (uniq_map_inj ua).
  have -> : uniq (map tc (unzip2 rs)).
    by rewrite map_inj_in_uniq // => x y /s2 xa /s2 ya; apply: (uniq_map_inj ub).
  rewrite andbT /=; apply/hasPn => t /mapP [y /s2 yb ->]; apply/negP => /mapP [x /s1 xa e].
  by move: (ne x y xa yb); rewrite e eqxx.
move=> t; rewrite (perm_mem (pair_times_perm tcd tc rs)) !mem_cat.
by case/orP => /mapP [x xin ->]; apply/orP; [left | right]; apply: map_f; [apply: s1 | apply: s2].
Qed.

Lemma removal_possible_ok n c rs : ok_core n c -> uniq (unzip1 rs) -> uniq (unzip2 rs) ->
  {subset unzip1 rs <= ops (cds c)} -> {subset unzip2 rs <= ops (ans c)} ->
  removal_possible tcd tc c rs = Some true.
Proof.
move=> ok u1 u2 s1 s2; have [u sub] := mem_distinct (ok_dis ok) u1 u2 s1 s2.
rewrite /removal_possible u.
have -> // : all (exist c) (pair_times tcd tc rs).
by apply/allP => t /sub; rewrite (existE _ (ok_cd ok) (ok_an ok)).
Qed.

(* putting the removed operators back *)
Lemma put_back n c1 c2 a b ra rb k : ok_core n c1 -> ops (cds c1) = a ++ ra -> ops (ans c1) = b ++ rb ->
  size a = (n - k)%N -> (k <= n)%N ->
  side_ok tcd (n - k) (cds c2) -> side_ok tc (n - k) (ans c2) ->
  ops (cds c2) = a -> ops (ans c2) = b -> sz c2 = n -> inv c2 = inv c1 -> perm c2 = perm c1 ->
  exists p c3, add_new_operators tcd tc (rev (rev (zip ra rb))) c2 = (p, c3, true) /\
    [/\ ok_core n c3, ops (cds c3) = a ++ ra & ops (ans c3) = b ++ rb].
Proof.
move=> ok e1 e2 za kn s1 s2 o1 o2 zs iv pe; rewrite revK.
have zb : size b = (n - k)%N by case: s2; rewrite o2.
have n1 : size (ops (cds c1)) = n by case: (ok_cd ok).
have n2 : size (ops (ans c1)) = n by case: (ok_an ok).
have zra : size ra = k by move: n1; rewrite e1 size_cat za; lia.
have zrb : size rb = k by move: n2; rewrite e2 size_cat zb; lia.
have h1 : unzip1 (zip ra rb) = ra by rewrite unzip1_zip ?zra ?zrb.
have h2 : unzip2 (zip ra rb) = rb by rewrite unzip2_zip ?zra ?zrb.
have dis : distinct_times (ops (cds c2) ++ unzip1 (zip ra rb), ops (ans c2) ++ unzip2 (zip ra rb)).
  by rewrite o1 o2 h1 h2 -e1 -e2; exact: (ok_dis ok).
have [p [c3 [e3 [s3 s4] [o3 o4] _ [z3 i3 p3]]]] := add_new_ok s1 s2 dis.
have zz : size (zip ra rb) = k by rewrite size_zip zra zrb minnn.
exists p, c3; split=> //; rewrite zz subnK // in s3 s4; rewrite o1 h1 in o3; rewrite o2 h2 in o4.
split=> //; apply: (ok_core_ext ok) => //.
- by rewrite z3 zs (ok_sz ok).
- by rewrite i3.
- by rewrite p3.
- by rewrite o3.
- by rewrite o4.
Qed.

Lemma remove_cycle n d rs : st d = waiting -> ok_core n (co d) -> (0 < size rs)%N ->
  let a := ops (cds (co d)) in let b := ops (ans (co d)) in
  uniq (unzip1 rs) -> uniq (unzip2 rs) -> {subset unzip1 rs <= a} -> {subset unzip2 rs <= b} ->
  Ok_cycle (try_remove tcd tc cd0 c0 rs) (@perform_remove _ _ _ _ _) (reject_remove tcd tc)
    d n a b (n - size rs)
    [seq o <- a | o \notin unzip1 rs] [seq o <- b | o \notin unzip2 rs] (fun _ => True) (fun _ => True).
Proof.
move=> wt ok rs0 a b u1 u2 sub1 sub2.
have okd : ok_core n (co (set_st try_rem_called d)) by [].
have [c1 [a1 [b1 [ra [rb [p [d2 [et [ok1 [e1 e2 pa pb]] [za zb kn pra prb] [st2 rm2 pm2 md2 _]
  [[sz2 iv2 pe2] s1 s2 [o1 o2] sg]]]]]]]]] := take_out_ok okd u1 u2 sub1 sub2.
rewrite /Ok_cycle /try_remove wt /= (removal_possible_ok ok u1 u2 sub1 sub2) et.
have ka := perm_kept pa (side_uniq (ok_cd ok)) pra.
have kb := perm_kept pb (side_uniq (ok_an ok)) prb.
rewrite sz2 iv2.
have ua : uniq (map tcd a1) by case: s1; rewrite o1.
have ub : uniq (map tc b1) by case: s2; rewrite o2.
have iv1 := ok_inv ok1.
have dd := det_ratio_down_last_ok kn iv1.
have gg : feq (n - size rs) (n - size rs) (gmat a1 b1) (compute_g c1).
  by move=> i j il jl; rewrite /gmat /compute_g e1 e2 !nth_cat za zb il jl.
have ratio : weight ([seq o <- a | o \notin unzip1 rs], [seq o <- b | o \notin unzip2 rs]) =
    p * det_ratio_down_last n (size rs) (inv c1) * weight (a, b).
  have [ua0 ub0 _] := distinct_split (ok_dis ok).
  rewrite -(weight_perm cd0 c0 gf ua ub ka kb) (weight_storage cd0 c0 gf za zb ua ub) sg.
  rewrite (_ : weight (a, b) = weight (ops (cds c1), ops (ans c1))); last first.
    by apply: weight_perm => //; rewrite perm_sym ?e1 ?e2.
  rewrite (ok_weight ok1) det_ofE (fdet_ext gg) -det_ofE dd.
  by rewrite -!mulrA mulrCA; congr (_ * _); rewrite mulrCA.
eexists _, _; split; first by reflexivity.
- by [].
- rewrite /reject_remove st2 /= rm2.
  have [p3 [c3 [e3 [ok3 o3 o4]]]] := put_back ok1 e1 e2 za kn s1 s2 o1 o2 sz2 iv2 pe2.
  rewrite e3; eexists; split; first by reflexivity.
  by split=> //=; rewrite ?o3 ?o4.
- by [].
move=> rnz; split=> //.
have dnz : det_of (n - size rs) (compute_g c1) != 0.
  rewrite dd mulf_neq0 //; last exact: inverse_of_unit iv1.
  by apply: contraNneq rnz => ->; rewrite mulr0.
have iv1' : inverse_of ((n - size rs) + size rs) (compute_g c1) (inv c1) by rewrite subnK.
have dw := downdate_ok iv1' dnz.
rewrite /perform_remove st2 /= pm2 rm2 sz2 iv2.
have zr : size (rev (zip ra rb)) = size rs.
  rewrite size_rev size_zip (perm_size pra) (perm_size prb) !size_map minnn //.
rewrite zr /inverse_matrix_down_last ltnNge kn (negbTE (lt0n_neq0 rs0)) /=.
eexists; split; first by reflexivity.
split=> //=; rewrite ?o1 ?o2 //; split=> //=.
- rewrite o1 o2 (distinct_perm tcd tc ka kb).
  have [] // := @distinct_cat a1 b1 ra rb _; last by rewrite (distinct_perm tcd tc ka kb).
  by rewrite -e1 -e2; exact: (ok_dis ok1).
- apply: inverse_of_ext dw; last exact: feq_refl.
  by move=> i j il jl; rewrite -(gg i j il jl) /compute_g /gmat o1 o2.
- by rewrite o1 o2 sg pe2.
Qed.

(* ---- removing and adding ---- *)

Lemma removal_insertion_possible_ok n c rs ps : ok_core n c -> uniq (unzip1 rs) -> uniq (unzip2 rs) ->
  {subset unzip1 rs <= ops (cds c)} -> {subset unzip2 rs <= ops (ans c)} ->
  distinct_times ([seq o <- ops (cds c) | o \notin unzip1 rs] ++ unzip1 ps,
                  [seq o <- ops (ans c) | o \notin unzip2 rs] ++ unzip2 ps) ->
  removal_insertion_possible tcd tc c rs ps = Some true.
Proof.
move=> ok u1 u2 s1 s2 /distinct_cat [_ dis h].
have [u sub] := mem_distinct (ok_dis ok) u1 u2 s1 s2.
rewrite /removal_insertion_possible u andbT uniq_pair_times dis andbT.
have -> : all (exist c) (pair_times tcd tc rs).
  by apply/allP => t /sub; rewrite (existE _ (ok_cd ok) (ok_an ok)).
congr Some; apply/allP => t tin; rewrite (existE _ (ok_cd ok) (ok_an ok)).
rewrite (perm_mem (pair_times_perm tcd tc rs)).
have := h t; rewrite -(perm_mem (pair_times_perm tcd tc ps)) tin => /(_ isT).
rewrite !mem_cat !negb_or => /andP [n1 n2].
case: (boolP (t \in map tcd (ops (cds c)))) => [/mapP [o oin e]|_] /=.
  have -> // : t \in map tcd (unzip1 rs).
  rewrite e; apply: map_f; apply: contraNT n1 => onot.
  by rewrite e; apply: map_f; rewrite mem_filter onot.
case: (boolP (t \in map tc (ops (ans c)))) => [/mapP [o oin e]|_] //=.
have -> : t \in map tc (unzip2 rs); last by rewrite orbT.
rewrite e; apply: map_f; apply: contraNT n2 => onot.
by rewrite e; apply: map_f; rewrite mem_filter onot.
Qed.

Lemma replace_ratio_nz N M Mo (G invG Q R S : fmat F) : inverse_of (N + Mo) G invG ->
  (replace_det_ratio N M Mo Q R S invG).1 != 0 -> det_of N G != 0.
Proof.
move=> iv; rewrite /replace_det_ratio; case: (eqVneq N 0%N) => [-> _|N0].
  by rewrite det_ofE /fdet det_mx00 oner_eq0.
rewrite /=; case: (eqVneq (fdet Mo (fblock N N invG)) 0) => [_|tnz _] /=; first by rewrite eqxx.
have := det_ratio_down_last_ok (leq_addl N Mo) iv; rewrite /det_ratio_down_last addnK => ->.
by rewrite mulf_neq0 // (inverse_of_unit iv).
Qed.

Lemma remove_add_cycle n d rs ps : st d = waiting -> ok_core n (co d) -> (0 < size rs)%N ->
  let a := ops (cds (co d)) in let b := ops (ans (co d)) in
  let a' := [seq o <- a | o \notin unzip1 rs] in let b' := [seq o <- b | o \notin unzip2 rs] in
  uniq (unzip1 rs) -> uniq (unzip2 rs) -> {subset unzip1 rs <= a} -> {subset unzip2 rs <= b} ->
  distinct_times (a' ++ unzip1 ps, b' ++ unzip2 ps) ->
  Ok_cycle (try_remove_add tcd tc cd0 c0 gf rs ps) (@perform_remove_add _ _ _ _ _)
    (reject_remove_add tcd tc)
    d n a b (n - size rs + size ps) (a' ++ unzip1 ps) (b' ++ unzip2 ps)
    (fun _ => weight (a', b') != 0)
    (fun r => (0 < size a')%N -> weight (a', b') = 0 -> r = 0).
Proof.
move=> wt ok rs0 a b a' b' u1 u2 sub1 sub2 dis.
have okd : ok_core n (co (set_impossible false (set_st try_rem_add_called d))) by [].
have [c1 [a1 [b1 [ra [rb [p [d2 [et [ok1 [e1 e2 pa pb]] [za zb kn pra prb] [st2 rm2 pm2 md2 im2]
  [[sz2 iv2 pe2] s1 s2 [o1 o2] sg]]]]]]]]] := take_out_ok okd u1 u2 sub1 sub2.
rewrite /Ok_cycle /try_remove_add wt /= (removal_insertion_possible_ok ok u1 u2 sub1 sub2 dis) rs0 et.
have ka : perm_eq a1 a' := perm_kept pa (side_uniq (ok_cd ok)) pra.
have kb : perm_eq b1 b' := perm_kept pb (side_uniq (ok_an ok)) prb.
have dis1 : distinct_times (ops (cds (co d2)) ++ unzip1 ps, ops (ans (co d2)) ++ unzip2 ps).
  by rewrite o1 o2 (distinct_perm tcd tc (a' := a' ++ unzip1 ps) (b' := b' ++ unzip2 ps)) // perm_cat2r.
have [p' [c4 [ea [s3 s4] [o3 o4] sg4 [z4 i4 p4]]]] := add_new_ok s1 s2 dis1.
rewrite o1 in o3 sg4; rewrite o2 in o4 sg4.
rewrite /put_in ea /= (ok_sz ok).
have za4 : size (ops (cds c4)) = (n - size rs + size ps)%N by case: s3.
have zb4 : size (ops (ans c4)) = (n - size rs + size ps)%N by case: s4.
have ua4 : uniq (map tcd (ops (cds c4))) by case: s3.
have ub4 : uniq (map tc (ops (ans c4))) by case: s4.
have ua : uniq (map tcd a1) by case: s1; rewrite o1.
have ub : uniq (map tc b1) by case: s2; rewrite o2.
have g1 : feq (n - size rs) (n - size rs) (compute_g c1) (gmat a1 b1).
  by move=> i j il jl; rewrite /gmat /compute_g e1 e2 !nth_cat za zb il jl.
have g4 : feq (n - size rs) (n - size rs) (compute_g c4) (compute_g c1).
  by move=> i j il jl; rewrite /compute_g e1 e2 o3 o4 !nth_cat za zb il jl.
set N := (n - size rs)%N in za zb s1 s2 s3 s4 za4 zb4 g1 g4 *.
set Q := fun i j => compute_g c4 i (N + j)%N.
set R := fun i j => compute_g c4 (N + i)%N j.
set Sb := fun i j => compute_g c4 (N + i)%N (N + j)%N.
have bo : feq (N + size ps) (N + size ps) (bordered N (compute_g c1) Q R Sb) (compute_g c4).
  move=> i j il jl; rewrite -(gmat_bordered za4 zb4 il jl) /bordered.
  by case: ltnP => // hi; case: ltnP => // hj; rewrite g4.
have iv1 : inverse_of (N + size rs) (compute_g c1) (inv c1) by rewrite subnK //; exact: ok_inv ok1.
rewrite iv2; set rw := replace_det_ratio _ _ _ _ _ _ _.
have wk : weight (a', b') = sgn2 a1 b1 * det_of N (compute_g c1).
  rewrite -(weight_perm cd0 c0 gf ua ub ka kb) (weight_storage cd0 c0 gf za zb ua ub).
  by rewrite !det_ofE (fdet_ext g1).
have ratio : det_of N (compute_g c1) != 0 ->
    weight (a' ++ unzip1 ps, b' ++ unzip2 ps) = p * p' * rw.1 * weight (a, b).
  move=> nz; have [e _] := replace_ok (size ps) Q R Sb iv1 nz.
  have -> : weight (a' ++ unzip1 ps, b' ++ unzip2 ps) = weight (ops (cds c4), ops (ans c4)).
    apply/esym/weight_perm => //; first by rewrite o3 perm_cat2r.
    by rewrite o4 perm_cat2r.
  rewrite (weight_storage cd0 c0 gf za4 zb4 ua4 ub4) sg4 sg.
  have -> : det_of (N + size ps) (gmat (ops (cds c4)) (ops (ans c4))) = rw.1 * det_of n (compute_g c1).
    by rewrite -{1}(subnK kn) -/N -e !det_ofE (fdet_ext bo).
  have [ua0 ub0 _] := distinct_split (ok_dis ok).
  rewrite (_ : weight (a, b) = weight (ops (cds c1), ops (ans c1))); last first.
    by apply: weight_perm => //; rewrite perm_sym ?e1 ?e2.
  rewrite (ok_weight ok1) -!mulrA mulrCA; congr (_ * _); rewrite mulrCA; congr (_ * _).
  by rewrite mulrCA.
eexists _, _; split; first by reflexivity.
- split=> // a0; rewrite wk => /eqP; rewrite mulf_eq0 (negbTE (sgn2_neq0 _ _ _ _ _)) /= => /eqP wz.
  have N0 : (N == 0%N) = false.
    by apply/negbTE; rewrite -lt0n -za (perm_size ka).
  have := det_ratio_down_last_ok (leq_addl N (size rs)) iv1; rewrite addnK wz => /esym/eqP.
  rewrite mulf_eq0 (negbTE (inverse_of_unit iv1)) orbF /det_ratio_down_last addnK => /eqP tz.
  by rewrite /rw /replace_det_ratio N0 tz eqxx mulr0.
- rewrite /reject_remove_add /= st2 /= /remove_last_operators za4 ltnNge leq_addl /=.
  have s3' : side_ok' tcd (N + size ps) (cds c4, ans c4).1 [::] by apply/side_ok_nil.
  have s4' : side_ok' tc (N + size ps) (cds c4, ans c4).2 [::] by apply/side_ok_nil.
  have x1 : exists x, ops (cds c4, ans c4).1 = a1 ++ x by exists (unzip1 ps).
  have x2 : exists x, ops (cds c4, ans c4).2 = b1 ++ x by exists (unzip2 ps).
  have [m [s' [er s1' s2' [oa ob] i]]] := remove_loop_ok 0 s3' s4' za zb x1 x2.
  rewrite er rm2.
  move/side_ok_nil in s1'; move/side_ok_nil in s2'.
  set c5 := Core _ _ _ _ _.
  have zz : sz c5 = n by rewrite /= z4.
  have ii : inv c5 = inv c1 by rewrite /= i4.
  have pp : perm c5 = perm c1 by rewrite /= p4.
  have [p3 [c3 [e3 [ok3 o5 o6]]]] := @put_back n c1 c5 a1 b1 ra rb (size rs) ok1 e1 e2 za kn s1' s2' oa ob zz ii pp.
  rewrite e3; eexists; split; first by reflexivity.
  by split=> //=; rewrite ?o5 ?o6.
- by move=> wnz; apply: ratio; apply: contraNneq wnz; rewrite wk => ->; rewrite mulr0.
move=> rnz.
have rwnz : rw.1 != 0 by apply: contraNneq rnz => ->; rewrite mulr0.
have nz := replace_ratio_nz iv1 rwnz.
split; first exact: ratio.
have [_ /(_ rwnz) [res [eres ires]]] := replace_ok (size ps) Q R Sb iv1 nz.
rewrite /perform_remove_add /= eres st2 /= im2 /=.
eexists; split; first by reflexivity.
split=> //=; [| by rewrite o3 perm_cat2r | by rewrite o4 perm_cat2r].
split=> //=.
- by move: dis1; rewrite o1 o2 o3 o4.
- by apply: inverse_of_ext ires => //; exact: feq_refl.
- by rewrite sg4 sg p4 pe2 mulrA.
Qed.

(* ---- replacing one operator ---- *)

Lemma swapped_ok (O : eqType) (o0 : O) m (l : seq O) p : size l = m.+1 -> (p < m.+1)%N ->
  exists l', [seq nth o0 l (swapi p m k) | k <- iota 0 m.+1] = rcons l' (nth o0 l p) /\
    perm_eq (rcons l' (nth o0 l p)) l.
Proof.
move=> zl pl; set l1 := map _ _.
have zl1 : size l1 = m.+1 by rewrite size_map size_iota.
have pe : perm_eq l1 l.
  have il : [seq nth o0 l i | i <- iota 0 m.+1] = l by rewrite -zl -/(mkseq _ _) mkseq_nth.
  have := map_exchange o0 l (perm_refl _) pl (ltnSn m); rewrite il -/l1 => ->.
  by rewrite -{2}il; apply: perm_map; apply: exchange_perm.
have e : l1 = rcons (take m l1) (nth o0 l p).
  rewrite -{1}(cat_take_drop m l1) -cats1; congr (_ ++ _).
  rewrite (drop_nth o0) ?zl1 // drop_oversize ?zl1 //.
  by rewrite /l1 (nth_map 0%N) ?size_iota // nth_iota // add0n /swapi eqxx; case: eqP => // ->.
by exists (take m l1); rewrite -e.
Qed.

Lemma replace_signE (O : eqType) (tm : O -> T) n (s : side T O) l old new (sg : seq O -> F) :
  side_ok tm n s -> ops s = rcons l old -> tm new \notin map tm l ->
  (forall x y k, odd (inv_t tm y) = odd (inv_t tm x) (+) odd k -> sg y = sg x * (-1) ^+ k) ->
  sg (rcons l new) = sg (rcons l old) * replace_sign F (tm old) (tm new) (pos s).
Proof.
move=> ok e nn h.
have no : tm old \notin map tm l.
  by case: ok => _ u _ _; move: u; rewrite e map_rcons rcons_uniq => /andP [].
have := inv_t_replace no nn; rewrite /replace_sign !(side_mlower _ ok) e.
set k := (_ + _)%N; set lt := (tm old < tm new)%O => ik.
rewrite (h (rcons l old) (rcons l new) (k + lt)%N); last by rewrite ik oddD addbA; case: (lt).
congr (_ * _); rewrite exprD -[in LHS]signr_odd.
by case: (odd k); case: (lt); rewrite /= ?expr0 ?expr1 ?mulr1 ?mulN1r ?mulrN1 ?opprK.
Qed.

Lemma replace_cdagg_cycle n d old new : st d = waiting -> ok_core n (co d) ->
  let a := ops (cds (co d)) in let b := ops (ans (co d)) in
  let a' := rcons [seq o <- a | o \notin [:: old]] new in
  old \in a -> distinct_times (a', b) ->
  Ok_cycle (try_replace_cdagg tcd cd0 c0 gf old new) (perform_replace_cdagg tcd cd0)
    (@reject_replace_cdagg _ _ _ _ _) d n a b n a' b (fun _ => True) (fun _ => True).
Proof.
move=> wt ok a b a' oin dis.
have zn : size a = n by case: (ok_cd ok).
case: n ok zn => [|m] ok zn; first by move: oin; rewrite (size0nil zn).
have pl : (index old a < m.+1)%N by rewrite -zn index_mem.
rewrite /Ok_cycle /try_replace_cdagg wt /= (side_find cd0 (ok_cd ok) oin) (ok_sz ok) subn1 /=.
have [ok1 an1 o1] := swap_cd_ok ok pl (ltnSn m).
have [l [el pll]] := swapped_ok cd0 zn pl.
rewrite -/a el (nth_index _ oin) in o1; rewrite (nth_index _ oin) in pll.
set c1 := swap_cdagg_op _ _ _ _ _ in ok1 an1 o1 *.
have zl : size l = m by have := perm_size pll; rewrite size_rcons zn => -[].
have kl : perm_eq l [seq o <- a | o \notin [:: old]].
  by apply: (@perm_kept _ _ [:: old]) => //; [rewrite cats1 | apply: side_uniq (ok_cd ok)].
have pa' : perm_eq (rcons l new) a' by rewrite /a' -!cats1 perm_cat2r.
have dis' : distinct_times (rcons l new, b) by rewrite (distinct_perm tcd tc pa' (perm_refl b)).
have [ua' ub' _] := distinct_split dis'.
have nn : tcd new \notin map tcd l by move: ua'; rewrite map_rcons rcons_uniq => /andP [].
have b1 : ops (ans c1) = b by rewrite an1.
have hsg x y k : odd (inv_t tcd y) = odd (inv_t tcd x) (+) odd k -> sgn2 y b = sgn2 x b * (-1) ^+ k.
  by move=> h; apply: sgn2_odd; rewrite !oddD h; case: (odd _); case: (odd _); case: (odd _).
have sg := @replace_signE _ tcd _ (cds c1) l old new (fun x => sgn2 x b) (ok_cd ok1) o1 nn hsg.
rewrite /= in sg.
set s := replace_sign _ _ _ _ in sg *.
set col : fmat F := fun i (_ : nat) => gf (nth c0 (ops (ans c1)) i) new.
have gc : feq m.+1 m.+1 (with_last_col m.+1 (compute_g c1) (fun i => col i 0%N)) (gmat (rcons l new) b).
  move=> i j il jl; rewrite /with_last_col /gmat /compute_g /col o1 b1 !nth_rcons zl subn1 /=.
  by rewrite ltn_neqAle -ltnS jl andbT; case: eqP.
have iv1 := ok_inv ok1.
have wr := last_col_ratio_ok col (ltn0Sn m) iv1.
have zb : size b = m.+1 by case: (ok_an ok).
have zr : size (rcons l new) = m.+1 by rewrite size_rcons zl.
have ratio : weight (a', b) = s * det_ratio_last_col m.+1 (inv c1) col * weight (a, b).
  rewrite -(weight_perm cd0 c0 gf ua' ub' pa' (perm_refl b)) (weight_storage cd0 c0 gf zr zb ua' ub') sg.
  rewrite !det_ofE -(fdet_ext gc) -det_ofE wr.
  have [ua0 ub0 _] := distinct_split (ok_dis ok).
  have -> : weight (a, b) = weight (ops (cds c1), ops (ans c1)).
    by apply: weight_perm => //; rewrite ?b1 // o1 perm_sym.
  rewrite (ok_weight ok1) (ok_perm ok1) o1 b1 -!mulrA mulrCA; congr (_ * _); rewrite mulrCA.
  by congr (_ * _).
eexists _, _; split; first by reflexivity.
- by [].
- rewrite /reject_replace_cdagg /=; eexists; split; first by reflexivity.
  by split=> //=; rewrite ?o1 ?b1.
- by [].
move=> rnz; split=> //.
have dnz : det_ratio_last_col m.+1 (inv c1) col != 0 by apply: contraNneq rnz => ->; rewrite mulr0.
have iv2 := last_col_inverse_ok (ltn0Sn m) iv1 dnz.
have [sr or] := replace_side_ok cd0 (ok_cd ok1) o1 nn.
rewrite /perform_replace_cdagg /= (ok_sz ok1); eexists; split; first by reflexivity.
have oe : ops (cds (Core m.+1 (inverse_last_col m.+1 (inv c1) col (det_ratio_last_col m.+1 (inv c1) col))
  (perm c1 * s) (side_replace tcd cd0 m.+1 old new (cds c1)) (ans c1))) = rcons l new := or.
split; rewrite ?[st _]/= ?[co _]/= ?oe ?[ans _]/= ?b1 //; split=> //.
- exact: ok_an ok1.
- by rewrite oe /= b1.
- by apply: inverse_of_ext iv2; [by move=> i j il jl; rewrite (gc i j il jl) /compute_g oe -b1 | exact: feq_refl].
- by rewrite oe /= (ok_perm ok1) o1 b1 sg.
Qed.

Lemma replace_c_cycle n d old new : st d = waiting -> ok_core n (co d) ->
  let a := ops (cds (co d)) in let b := ops (ans (co d)) in
  let b' := rcons [seq o <- b | o \notin [:: old]] new in
  old \in b -> distinct_times (a, b') ->
  Ok_cycle (try_replace_c tc cd0 c0 gf old new) (perform_replace_c tc c0)
    (@reject_replace_c _ _ _ _ _) d n a b n a b' (fun _ => True) (fun _ => True).
Proof.
move=> wt ok a b b' oin dis.
have zn : size b = n by case: (ok_an ok).
case: n ok zn => [|m] ok zn; first by move: oin; rewrite (size0nil zn).
have pl : (index old b < m.+1)%N by rewrite -zn index_mem.
rewrite /Ok_cycle /try_replace_c wt /= (side_find c0 (ok_an ok) oin) (ok_sz ok) subn1 /=.
have [ok1 an1 o1] := swap_c_ok ok pl (ltnSn m).
have [l [el pll]] := swapped_ok c0 zn pl.
rewrite -/b el (nth_index _ oin) in o1; rewrite (nth_index _ oin) in pll.
set c1 := swap_c_op _ _ _ _ _ in ok1 an1 o1 *.
have zl : size l = m by have := perm_size pll; rewrite size_rcons zn => -[].
have kl : perm_eq l [seq o <- b | o \notin [:: old]].
  by apply: (@perm_kept _ _ [:: old]) => //; [rewrite cats1 | apply: side_uniq (ok_an ok)].
have pb' : perm_eq (rcons l new) b' by rewrite /b' -!cats1 perm_cat2r.
have dis' : distinct_times (a, rcons l new) by rewrite (distinct_perm tcd tc (perm_refl a) pb').
have [ua' ub' _] := distinct_split dis'.
have nn : tc new \notin map tc l by move: ub'; rewrite map_rcons rcons_uniq => /andP [].
have a1 : ops (cds c1) = a by rewrite an1.
have hsg x y k : odd (inv_t tc y) = odd (inv_t tc x) (+) odd k -> sgn2 a y = sgn2 a x * (-1) ^+ k.
  by move=> h; apply: sgn2_odd; rewrite !oddD h; case: (odd _); case: (odd _); case: (odd _).
have sg := @replace_signE _ tc _ (ans c1) l old new (fun x => sgn2 a x) (ok_an ok1) o1 nn hsg.
rewrite /= in sg.
set s := replace_sign _ _ _ _ in sg *.
set row : fmat F := fun (_ : nat) j => gf new (nth cd0 (ops (cds c1)) j).
have gc : feq m.+1 m.+1 (with_last_row m.+1 (compute_g c1) (row 0%N)) (gmat a (rcons l new)).
  move=> i j il jl; rewrite /with_last_row /gmat /compute_g /row o1 a1 !nth_rcons zl subn1 /=.
  by rewrite ltn_neqAle -ltnS il andbT; case: eqP.
have iv1 := ok_inv ok1.
have wr := last_row_ratio_ok row (ltn0Sn m) iv1.
have za : size a = m.+1 by case: (ok_cd ok).
have zr : size (rcons l new) = m.+1 by rewrite size_rcons zl.
have ratio : weight (a, b') = s * det_ratio_last_row m.+1 (inv c1) row * weight (a, b).
  rewrite -(weight_perm cd0 c0 gf ua' ub' (perm_refl a) pb') (weight_storage cd0 c0 gf za zr ua' ub') sg.
  rewrite !det_ofE -(fdet_ext gc) -det_ofE wr.
  have [ua0 ub0 _] := distinct_split (ok_dis ok).
  have -> : weight (a, b) = weight (ops (cds c1), ops (ans c1)).
    by apply: weight_perm => //; rewrite ?a1 // o1 perm_sym.
  rewrite (ok_weight ok1) (ok_perm ok1) o1 a1 -!mulrA mulrCA; congr (_ * _); rewrite mulrCA.
  by congr (_ * _).
eexists _, _; split; first by reflexivity.
- by [].
- rewrite /reject_replace_c /=; eexists; split; first by reflexivity.
  by split=> //=; rewrite ?o1 ?a1.
- by [].
move=> rnz; split=> //.
have dnz : det_ratio_last_row m.+1 (inv c1) row != 0 by apply: contraNneq rnz => ->; rewrite mulr0.
have iv2 := last_row_inverse_ok (ltn0Sn m) iv1 dnz.
have [sr or] := replace_side_ok c0 (ok_an ok1) o1 nn.
rewrite /perform_replace_c /= (ok_sz ok1); eexists; split; first by reflexivity.
have oe : ops (ans (Core m.+1 (inverse_last_row m.+1 (inv c1) row (det_ratio_last_row m.+1 (inv c1) row))
  (perm c1 * s) (cds c1) (side_replace tc c0 m.+1 old new (ans c1)))) = rcons l new := or.
split; rewrite ?[st _]/= ?[co _]/= ?oe ?[cds _]/= ?a1 //; split=> //.
- exact: ok_cd ok1.
- by rewrite oe /= a1.
- by apply: inverse_of_ext iv2; [by move=> i j il jl; rewrite (gc i j il jl) /compute_g oe -a1 | exact: feq_refl].
- by rewrite oe /= (ok_perm ok1) o1 a1 sg.
Qed.

End Cycles.
