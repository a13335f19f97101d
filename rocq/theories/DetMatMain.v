(* Proofs about the determinant matrix: requests, histories and rejected updates. *)
From mathcomp Require Import all_ssreflect ssralg ssrint fingroup perm matrix order zify.
From Verif Require Import Outcome SortModel SortSpec SortProofs MatLib BlockLib MatSpec
  FormulaModel FormulaProofs RmatProofs DetMatModel DetMatSpec DetMatSide DetMatProofs
  DetMatCycles.

Set Implicit Arguments.
Unset Strict Implicit.
Unset Printing Implicit Defensive.

Local Open Scope ring_scope.
Import GRing.Theory Order.TTheory.

Section Main.
Variables (F : fieldType) (disp : unit) (T : orderType disp).
Variables (CD C : eqType) (tcd : CD -> T) (tc : C -> T) (cd0 : CD) (c0 : C).
Variable gf : C -> CD -> F.
Notation core := (core F T CD C).
Notation dm := (dm F T CD C).
Notation weight := (weight tcd tc cd0 c0 gf).
Notation compute_g := (compute_g cd0 c0 gf).
Notation distinct_times := (@distinct_times _ T CD C tcd tc).
Notation ok_core := (ok_core tcd tc cd0 c0 gf).
Notation sgn2 := (@sgn2 F _ _ _ _ tcd tc).
Notation gmat := (gmat cd0 c0 gf).
Notation good := (@good F _ T CD C tcd tc cd0 c0 gf).
Notation holds := (@holds F _ T CD C tcd tc cd0 c0 gf).
Notation admissible := (@admissible _ T CD C tcd tc).
Notation conf := (conf CD C).
Notation request := (request CD C).
Implicit Types (c : core) (d : dm) (a : seq CD) (b : seq C) (ps rs : seq (CD * C)).
Implicit Types (x : conf) (u : request).

Notation after := (@after CD C).
Notation kept := (@kept CD C).

Lemma good_size n d a b : good n d a b -> [/\ n = size a, size a = size b & distinct_times (a, b)].
Proof.
case=> _ ok pa pb; have [za _ _ _] := ok_cd ok; have [zb _ _ _] := ok_an ok.
rewrite -(perm_size pa) -(perm_size pb) za zb; split=> //.
by rewrite -(distinct_perm tcd tc pa pb); exact: ok_dis ok.
Qed.

Lemma good_perm n d a b a' b' : good n d a b -> perm_eq a a' -> perm_eq b b' -> good n d a' b'.
Proof. by case=> s o p1 p2 q1 q2; split=> //; [apply: perm_trans p1 q1 | apply: perm_trans p2 q2]. Qed.

Lemma good_holds n d a b : good n d a b -> holds d (a, b).
Proof.
move=> g; have [en eab dis] := good_size g; case: g => wt ok pa pb.
have [za _ sa _] := ok_cd ok; have [zb _ sb _] := ok_an ok.
split=> //=.
- split; last by rewrite (ok_sz ok).
  by split=> //=; [apply: perm_trans sa pa | apply: perm_trans sb pb].
- by split; [apply: ok_points (ok_cd ok) | apply: ok_points (ok_an ok)].
- by rewrite -en; exact: ok_inv ok.
have [ua ub _] := distinct_split (ok_dis ok).
by case: d wt ok pa pb {za zb sa sb} ua ub => s c w /= _ ok pa pb ua ub; rewrite (ok_det _ _ ok); apply: weight_perm.
Qed.

Lemma holds_good d x : holds d x -> good (size x.1) d x.1 x.2.
Proof.
case: x => a b [[wt dis] [[pa qa pb qb] [eab es]] [ma mb] iv cd]; rewrite /= in dis pa qa pb qb eab es iv *.
split=> //.
have dis' : distinct_times (ops (cds (co d)), ops (ans (co d))) by rewrite (distinct_perm tcd tc pa pb).
have [ua ub _] := distinct_split dis'.
have sa : side_ok tcd (size a) (cds (co d)).
  by rewrite -(perm_size pa); apply: points_ok ma => //; apply: perm_trans qa _; rewrite perm_sym.
have sb : side_ok tc (size a) (ans (co d)).
  by rewrite eab -(perm_size pb); apply: points_ok mb => //; apply: perm_trans qb _; rewrite perm_sym.
have ex : inverse_of (size a) (compute_g (co d)) (inv (co d)) by [].
have za : size (ops (cds (co d))) = size a by case: sa.
have zb : size (ops (ans (co d))) = size a by case: sb.
split=> //.
have nz := inverse_of_unit (inverse_of_sym ex).
move: cd; rewrite /compute_determinant es -(weight_perm cd0 c0 gf ua ub pa pb).
rewrite (weight_storage cd0 c0 gf za zb ua ub) => /(congr1 (fun z => z * det_of (size a) (inv (co d)))).
have d1 := inverse_of_det ex.
rewrite -mulrA -mulrA -/(gmat _ _) [X in _ = _ * X]d1 mulr1 -det_ofE mulVf // mulr1.
by [].
Qed.

Definition Cyc d x u : Prop := exists d1 r,
  [/\ try_update tcd tc cd0 c0 gf (rem_cd u) (rem_c u) (add_cd u) (add_c u) d = DOk d1 r,
      exists d2, reject_update tcd tc cd0 c0 d1 = DOk d2 tt /\ holds d2 x,
      ~~ mixed u \/ weight (kept u x) != 0 -> weight (after u x) = r * weight x &
      r != 0 -> weight (after u x) = r * weight x /\
        exists d3, perform_update tcd tc cd0 c0 d1 = DOk d3 tt /\ holds d3 (after u x)].

Lemma of_cycle d u m try perform reject n n' (x x' : conf) exact extra :
  Ok_cycle tcd tc cd0 c0 gf try perform reject (set_mode m d) n x.1 x.2 n' x'.1 x'.2 exact extra ->
  try_update tcd tc cd0 c0 gf (rem_cd u) (rem_c u) (add_cd u) (add_c u) d = try (set_mode m d) ->
  (forall d1, w_mode (wk d1) = Some m -> perform_update tcd tc cd0 c0 d1 = perform d1 /\
     reject_update tcd tc cd0 c0 d1 = reject d1) ->
  after u x = x' -> (~~ mixed u \/ weight (kept u x) != 0 -> forall r, exact r) ->
  Cyc d x u.
Proof.
case: x x' => a b [a' b'] /= [d1 [r [e [md xt] [d2 [er g]] ex hp]]] et hm ea hx; exists d1, r.
have [hm1 hm2] := hm _ md; rewrite et e ea hm1 hm2; split=> //.
- by exists d2; split=> //; exact: good_holds g.
- by move/hx => /(_ r); exact: ex.
move=> rnz; have [w [d3 [e3 g3]]] := hp rnz; split=> //; exists d3; split=> //.
exact: good_holds g3.
Qed.

Lemma unzip_take a b : size a = size b ->
  [/\ unzip1 (take (size a) (zip a b)) = a, unzip2 (take (size a) (zip a b)) = b &
      size (take (size a) (zip a b)) = size a].
Proof.
move=> e; rewrite take_oversize ?size_zip ?geq_minl //.
by split; rewrite ?unzip1_zip ?unzip2_zip ?size_zip ?e ?minnn.
Qed.

Lemma pairs_some a b : size a = size b ->
  to_operator_pairs a b (size a) = Some (take (size a) (zip a b)).
Proof. by move=> e; rewrite /to_operator_pairs e ltnn. Qed.

Lemma filter_nil (A : eqType) (l : seq A) : [seq o <- l | o \notin [::]] = l.
Proof. by rewrite (eq_filter (a2 := predT)) ?filter_predT. Qed.

Lemma request_own n d u : st d = waiting -> ok_core n (co d) ->
  let x := (ops (cds (co d)), ops (ans (co d))) in
  admissible u x -> Cyc d x u.
Proof.
move=> wt ok x [sh /andP [u1 u2] s1 s2 dis].
case: u sh u1 u2 s1 s2 dis => rcd rc acd ac; rewrite /shape /= => sh u1 u2 s1 s2 dis.
rewrite /after /= in dis.
case/or3P: sh => [/andP [/eqP zr /eqP za]|/and4P [/eqP z1 /eqP z2 /eqP z3 /eqP z4]|/and4P [/eqP z1 /eqP z2 /eqP z3 /eqP z4]].
- have tu : try_update tcd tc cd0 c0 gf rcd rc acd ac d =
    if (size acd == 0)%N && (size rcd == 0)%N then DOk (set_mode do_nothing d) 1
    else if (size rcd == 0)%N then try_add tcd tc cd0 c0 gf (take (size acd) (zip acd ac)) (set_mode m_add d)
    else if (size acd == 0)%N then try_remove tcd tc cd0 c0 (take (size rcd) (zip rcd rc)) (set_mode m_rem d)
    else try_remove_add tcd tc cd0 c0 gf (take (size rcd) (zip rcd rc)) (take (size acd) (zip acd ac)) (set_mode m_rem_add d).
    rewrite /try_update !pairs_some // -za -zr addnC eqxx /=.
    by case: (size acd) => [|[|?]]; case: (size rcd) => [|[|?]].
  have [ua1 ua2 ua3] := unzip_take za; have [ur1 ur2 ur3] := unzip_take zr.
  case: (posnP (size acd)) => [/size0nil a0|apos]; case: (posnP (size rcd)) => [/size0nil r0|rpos].
  + have a0' : ac = [::] by apply: size0nil; rewrite -za a0.
    have r0' : rc = [::] by apply: size0nil; rewrite -zr r0.
    rewrite r0 r0' a0 a0' in tu *.
    have g : good n d x.1 x.2 by [].
    have ea : after (Req [::] [::] [::] [::]) x = x by rewrite /after /= !cats0 !filter_predT.
    exists (set_mode do_nothing d), 1; rewrite /Cyc tu ea /=; split=> //.
    * by exists (set_mode do_nothing d); split=> //; exact: good_holds g.
    * by rewrite mul1r.
    * by rewrite mul1r; split=> //; exists (set_mode do_nothing d); split=> //; exact: good_holds g.
  + have a0' : ac = [::] by apply: size0nil; rewrite -za a0.
    rewrite a0 a0' in tu *; rewrite /= (gtn_eqF rpos) in tu.
    have c := @remove_cycle _ _ _ _ _ tcd tc cd0 c0 gf n (set_mode m_rem d) (take (size rcd) (zip rcd rc)) wt ok.
    rewrite ur1 ur2 ur3 in c.
    apply: (@of_cycle _ _ _ _ _ _ _ _ x ([seq o <- x.1 | o \notin rcd], [seq o <- x.2 | o \notin rc]) _ _ (c rpos u1 u2 s1 s2)) => //.
      by move=> d1 em; rewrite /perform_update /reject_update em.
    by rewrite /after /= !cats0.
  + have r0' : rc = [::] by apply: size0nil; rewrite -zr r0.
    rewrite r0 r0' in tu dis *; rewrite /= (gtn_eqF apos) /= in tu.
    have c := @add_cycle _ _ _ _ _ tcd tc cd0 c0 gf n (set_mode m_add d) (take (size acd) (zip acd ac)) wt ok.
    rewrite ua1 ua2 ua3 in c; rewrite !filter_nil in dis.
    apply: (@of_cycle _ _ _ _ _ _ _ _ x (x.1 ++ acd, x.2 ++ ac) _ _ (c apos dis)) => //.
      by move=> d1 em; rewrite /perform_update /reject_update em.
    by rewrite /after /= !filter_predT.
  + rewrite /= (gtn_eqF apos) (gtn_eqF rpos) /= in tu.
    have c := @remove_add_cycle _ _ _ _ _ tcd tc cd0 c0 gf n (set_mode m_rem_add d) (take (size rcd) (zip rcd rc)) (take (size acd) (zip acd ac)) wt ok.
    rewrite ur1 ur2 ur3 ua1 ua2 ua3 in c.
    apply: (@of_cycle _ _ _ _ _ _ _ _ x ([seq o <- x.1 | o \notin rcd] ++ acd, [seq o <- x.2 | o \notin rc] ++ ac) _ _ (c rpos u1 u2 s1 s2 dis)) => //.
      by move=> d1 em; rewrite /perform_update /reject_update em.
    by rewrite /mixed /= -zr -za apos rpos => -[].
- case: rcd z1 u1 s1 dis => [|old [|? ?]] // _ u1 s1 dis.
  case: acd z2 dis => [|new [|? ?]] // _ dis.
  have e3 := size0nil z3; have e4 := size0nil z4; rewrite e3 e4 cats1 cats0 filter_nil in dis *.
  have oin : old \in x.1 by apply: s1; rewrite inE.
  have c := @replace_cdagg_cycle _ _ _ _ _ tcd tc cd0 c0 gf n (set_mode m_replace_cdagg d) old new wt ok oin dis.
  apply: (@of_cycle _ _ _ _ _ _ _ _ x (rcons [seq o <- x.1 | o \notin [:: old]] new, x.2) _ _ c) => //.
    by move=> d1 em; rewrite /perform_update /reject_update em.
  by rewrite /after /= cats1 cats0 ?filter_predT.
- case: rc z3 u2 s2 dis => [|old [|? ?]] // _ u2 s2 dis.
  case: ac z4 dis => [|new [|? ?]] // _ dis.
  have e1 := size0nil z1; have e2 := size0nil z2; rewrite e1 e2 cats1 cats0 filter_nil in dis *.
  have oin : old \in x.2 by apply: s2; rewrite inE.
  have c := @replace_c_cycle _ _ _ _ _ tcd tc cd0 c0 gf n (set_mode m_replace_c d) old new wt ok oin dis.
  apply: (@of_cycle _ _ _ _ _ _ _ _ x (x.1, rcons [seq o <- x.2 | o \notin [:: old]] new) _ _ c) => //.
    by move=> d1 em; rewrite /perform_update /reject_update em.
  by rewrite /after /= cats1 cats0 ?filter_predT.
Qed.

Lemma perm_after u (x y : conf) : perm_eq x.1 y.1 -> perm_eq x.2 y.2 ->
  perm_eq (after u x).1 (after u y).1 /\ perm_eq (after u x).2 (after u y).2.
Proof. by move=> p1 p2; rewrite /after /= !perm_cat2r !perm_filter. Qed.

Lemma holds_perm d x y : holds d x -> perm_eq x.1 y.1 -> perm_eq x.2 y.2 -> holds d y.
Proof. by move=> /holds_good g p1 p2; case: y p1 p2 => a b p1 p2; apply: good_holds (good_perm g p1 p2). Qed.

Theorem request_ok d x u : holds d x -> admissible u x -> Cyc d x u.
Proof.
move=> h; have [wt ok p1 p2] := holds_good h.
move=> [sh un s1 s2 dis].
pose y := (ops (cds (co d)), ops (ans (co d))).
have [q1 q2] := @perm_after u y x p1 p2.
have disy : distinct_times (after u y).
  by move: dis; rewrite [after u x]surjective_pairing [after u y]surjective_pairing (distinct_perm tcd tc q1 q2).
have adm : admissible u y.
  by split=> // [o /s1|o /s2]; rewrite ?(perm_mem p1) ?(perm_mem p2).
have [d1 [r [e [d2 [er h2]] ex hp]]] := request_own wt ok adm.
have [ua ub _] := distinct_split (ok_dis ok).
have wx : weight y = weight x by rewrite [x]surjective_pairing; apply: weight_perm.
have wa : weight (after u y) = weight (after u x).
  rewrite [after u x]surjective_pairing [after u y]surjective_pairing.
  have [ua' ub' _] := @distinct_split _ _ _ _ tcd tc (after u y).1 (after u y).2 disy.
  exact: weight_perm.
have wk : weight (kept u y) = weight (kept u x).
  apply: weight_perm; rewrite ?perm_filter //.
    by apply: subseq_uniq (map_subseq tcd (filter_subseq _ _)) ua.
  by apply: subseq_uniq (map_subseq tc (filter_subseq _ _)) ub.
exists d1, r; rewrite -wa -wx -wk; split=> //.
- by exists d2; split=> //; apply: holds_perm h2 _ _.
move=> rnz; have [w [d3 [e3 h3]]] := hp rnz; split=> //; exists d3; split=> //.
exact: holds_perm h3 _ _.
Qed.

Theorem history_ok d x d2 x2 : history tcd tc cd0 c0 gf d x d2 x2 -> holds d x -> holds d2 x2.
Proof.
elim=> // {d x d2 x2} d x u accept r d1 d2 x2 adm cy rnz _ IH h; apply: IH.
have [e1 [r' [et [e2 [er h2]] _ hp]]] := request_ok h adm.
move: cy; rewrite /cycle et; case: accept rnz => rnz.
  case: (eqVneq r' 0) => [r0|r'nz].
    case: (perform_update _ _ _ _ _) => // d3 _ [_ er']; move: (rnz isT); rewrite -er' r0 eqxx.
    by [].
  by have [_ [d3 [-> h3]]] := hp r'nz => -[<- _].
by rewrite er => -[<- _].
Qed.

Theorem cycle_total d x u (accept : bool) : holds d x -> admissible u x ->
  exists r, [/\ ~~ mixed u \/ weight (kept u x) != 0 -> weight (after u x) = r * weight x &
   (accept -> r != 0) -> exists d1, cycle tcd tc cd0 c0 gf u accept d = DOk d1 r /\
     holds d1 (if accept then after u x else x)].
Proof.
move=> h adm; have [e1 [r' [et [e2 [er h2]] ex hp]]] := request_ok h adm.
exists r'; split=> // rnz; rewrite /cycle et; case: accept rnz => rnz; last by rewrite er; exists e2.
by have [_ [d3 [-> h3]]] := hp (rnz isT); exists d3.
Qed.

(* the inverse between two operators depends on the configuration only *)
Theorem inverse_between_ok d d' x (a : CD) (b : C) : holds d x -> holds d' x -> a \in x.1 -> b \in x.2 ->
  inverse_between d a b = inverse_between d' a b.
Proof.
move=> /holds_good [_ ok p1 p2] /holds_good [_ ok' p1' p2'] ax bx.
set n := size x.1 in ok ok'.
have za : size (ops (cds (co d))) = n by case: (ok_cd ok).
have zb : size (ops (ans (co d))) = n by case: (ok_an ok).
have za' : size (ops (cds (co d'))) = n by case: (ok_cd ok').
have zb' : size (ops (ans (co d'))) = n by case: (ok_an ok').
have [r1 q1 e1] : exists2 rs, perm_eq rs (iota 0 n) & ops (cds (co d')) = [seq nth cd0 (ops (cds (co d))) i | i <- rs].
  rewrite -za; apply/perm_iotaP; apply: perm_trans p1' _; by rewrite perm_sym.
have [r2 q2 e2] : exists2 rs, perm_eq rs (iota 0 n) & ops (ans (co d')) = [seq nth c0 (ops (ans (co d))) i | i <- rs].
  rewrite -zb; apply/perm_iotaP; apply: perm_trans p2' _; by rewrite perm_sym.
have iv := inverse_of_select q2 q1 (ok_inv ok).
have zr1 : size r1 = n by rewrite (perm_size q1) size_iota.
have zr2 : size r2 = n by rewrite (perm_size q2) size_iota.
have iv' : inverse_of n (select (compute_g (co d)) r2 r1) (inv (co d')).
  apply: inverse_of_ext (ok_inv ok'); last exact: feq_refl.
  by move=> i j il jl; rewrite /select /compute_g e1 e2 !(nth_map 0%N) ?zr1 ?zr2.
have eq := inverse_unique iv iv'.
rewrite /inverse_between.
have a' : a \in ops (cds (co d')) by rewrite (perm_mem p1').
have b' : b \in ops (ans (co d')) by rewrite (perm_mem p2').
have ia : (index a (ops (cds (co d'))) < n)%N by rewrite -za' index_mem.
have ib : (index b (ops (ans (co d'))) < n)%N by rewrite -zb' index_mem.
rewrite -(eq _ _ ia ib) /select; congr (inv _ _ _).
- have ha : nth cd0 (ops (cds (co d))) (nth 0%N r1 (index a (ops (cds (co d'))))) = a.
    by rewrite -(nth_map 0%N cd0) ?zr1 // -e1 nth_index.
  rewrite -{1}ha index_uniq //; last exact: side_uniq (ok_cd ok).
  by rewrite za; have := mem_nth 0%N (s := r1); move=> /(_ (index a (ops (cds (co d'))))); rewrite zr1 => /(_ ia); rewrite (perm_mem q1) mem_iota.
- have hb : nth c0 (ops (ans (co d))) (nth 0%N r2 (index b (ops (ans (co d'))))) = b.
    by rewrite -(nth_map 0%N c0) ?zr2 // -e2 nth_index.
  rewrite -{1}hb index_uniq //; last exact: side_uniq (ok_an ok).
  by rewrite zb; have := mem_nth 0%N (s := r2); move=> /(_ (index b (ops (ans (co d'))))); rewrite zr2 => /(_ ib); rewrite (perm_mem q2) mem_iota.
Qed.

(* the empty object *)
Lemma new_ok : holds (dm_new F T CD C) ([::], [::]).
Proof.
apply: (@good_holds 0%N); split=> //; split=> //=.
Qed.

Lemma weight_nil : weight ([::], [::]) = 1.
Proof. by rewrite /weight /det_of /= det_mx00. Qed.

(* construction from a list of operators *)
Theorem construct_ok ps : (0 < size ps)%N -> distinct_times (unzip1 ps, unzip2 ps) ->
  weight (unzip1 ps, unzip2 ps) != 0 ->
  exists d, dm_new_ops tcd tc cd0 c0 gf ps = DOk d tt /\ holds d (unzip1 ps, unzip2 ps).
Proof.
move=> p0 dis wnz; have [_ ok _ _] := holds_good new_ok.
have [d1 [r [e _ _ ex hp]]] := @add_cycle _ _ _ _ _ tcd tc cd0 c0 gf 0 (dm_new F T CD C) ps erefl ok p0 dis.
have er : weight (unzip1 ps, unzip2 ps) = r.
  by have := ex I; rewrite /= weight_nil mulr1.
rewrite er in wnz; have [_ [d3 [e3 g3]]] := hp wnz.
exists d3; split; first by rewrite /dm_new_ops e.
by move: g3 => /good_holds.
Qed.

Theorem rebuild_ok d x : holds d x ->
  exists d1, rebuild_inverse_matrix cd0 c0 gf d = DOk d1 tt /\ holds d1 x.
Proof.
move=> /holds_good [wt ok p1 p2]; rewrite /rebuild_inverse_matrix wt /=.
have z : size (ops (cds (co d))) = size x.1 by case: (ok_cd ok).
eexists; split; first by reflexivity.
rewrite [x]surjective_pairing; apply: (@good_holds (size x.1)); split=> //.
have nz := inverse_of_unit (ok_inv ok); case: ok => h1 h2 h3 h4 h5 h6.
split=> //=; rewrite z.
exact: finv_inverse.
Qed.

Lemma holds_neq0 d x : holds d x -> weight x != 0.
Proof.
move=> /holds_good [_ ok p1 p2]; have [ua ub _] := distinct_split (ok_dis ok).
rewrite [x]surjective_pairing -(weight_perm cd0 c0 gf ua ub p1 p2) (ok_weight ok).
by rewrite mulf_neq0 // ?(ok_perm ok) ?sgn2_neq0 //; exact: inverse_of_unit (ok_inv ok).
Qed.

(* a request to add operators at times that are taken *)
Theorem impossible_add_ok d x acd ac : holds d x ->
  size acd = size ac -> (0 < size acd)%N -> ~~ distinct_times (x.1 ++ acd, x.2 ++ ac) ->
  exists d1 d2, [/\ try_update tcd tc cd0 c0 gf [::] [::] acd ac d = DOk d1 0,
    reject_update tcd tc cd0 c0 d1 = DOk d2 tt & holds d2 x].
Proof.
move=> h za a0; have [wt ok p1 p2] := holds_good h => dis.
have [ua1 ua2 ua3] := unzip_take za.
have ip : insertion_possible tcd tc (co d) (take (size acd) (zip acd ac)) = false.
  apply: contraNF dis; rewrite /insertion_possible uniq_pair_times ua1 ua2 => /andP [/allP al di].
  have pm := pair_times_perm tcd tc (take (size acd) (zip acd ac)); rewrite ua1 ua2 in pm.
  rewrite /distinct_times /= !map_cat.
  rewrite (_ : uniq _ = uniq ((map tcd x.1 ++ map tc x.2) ++ (map tcd acd ++ map tc ac))); last first.
    by apply: perm_uniq; rewrite perm_catACA.
  have dx : distinct_times x.
    by rewrite [x]surjective_pairing -(distinct_perm tcd tc p1 p2); exact: ok_dis ok.
  rewrite /distinct_times /= in di; rewrite cat_uniq di andbT; apply/andP; split; first exact: dx.
  apply/hasPn => t tin; apply/negP => tin'.
  have := al t; rewrite (perm_mem pm) => /(_ tin); rewrite (existE _ (ok_cd ok) (ok_an ok)) mem_cat.
  have : t \in map tcd x.1 ++ map tc x.2 := tin'; rewrite mem_cat => {}tin'.
  by rewrite (perm_mem (perm_map tcd p1)) (perm_mem (perm_map tc p2)) tin'.
have tu : try_update tcd tc cd0 c0 gf [::] [::] acd ac d =
    try_add tcd tc cd0 c0 gf (take (size acd) (zip acd ac)) (set_mode m_add d).
  by rewrite /try_update !pairs_some // -za addnC eqxx /=; case: (size acd) a0 => [|[|?]].
eexists _, _; split.
- rewrite tu /try_add /= wt /= ip /=; reflexivity.
- rewrite /reject_update /= /reject_add /= /remove_excess_operators (ok_sz ok).
  have zk : size (pos (cds (co d))) = size x.1.
    by have := perm_size (side_keys (ok_cd ok)); rewrite !size_map => ->; case: (ok_cd ok).
  rewrite zk subnn /=; reflexivity.
have za' : size (ops (cds (co d))) = size x.1 by case: (ok_cd ok).
have zb' : size (ops (ans (co d))) = size x.1 by case: (ok_an ok).
have k1 := ok_cd ok; have k2 := ok_an ok; rewrite -[size x.1]addn0 in k1 k2.
have [s1 e1] := excess_ok cd0 k1 za' (ex_intro _ [::] (esym (cats0 _))).
have [s2 e2] := excess_ok c0 k2 zb' (ex_intro _ [::] (esym (cats0 _))).
rewrite [x]surjective_pairing; apply: (@good_holds (size x.1)).
rewrite /good ?[st _]/= ?[co _]/= ?[cds _]/= ?[ans _]/= e1 e2; split=> //.
by apply: (ok_core_ext ok) => //; rewrite (ok_sz ok).
Qed.

(* operator pairs removed and added while the block that stays is singular *)
Theorem mixed_zero d x u : holds d x -> admissible u x -> mixed u -> (0 < size (kept u x).1)%N ->
  weight (kept u x) = 0 ->
  exists d1, try_update tcd tc cd0 c0 gf (rem_cd u) (rem_c u) (add_cd u) (add_c u) d = DOk d1 0.
Proof.
move=> h; have [wt ok p1 p2] := holds_good h.
move=> [sh /andP [u1 u2] s1 s2 dis] /and4P [m1 m2 m3 m4] k0 w0.
case: u sh u1 u2 s1 s2 dis m1 m2 m3 m4 k0 w0 => rcd rc acd ac /= sh u1 u2 s1 s2 dis m1 m2 m3 m4 k0 w0.
have [zr za] : size rcd = size rc /\ size acd = size ac.
  by case/or3P: sh => [/andP [/eqP -> /eqP ->]|/and4P []|/and4P []] //=; rewrite ?(gtn_eqF m2) ?(gtn_eqF m1).
pose y := (ops (cds (co d)), ops (ans (co d))).
have [q1 q2] := @perm_after (Req rcd rc acd ac) y x p1 p2.
have disy : distinct_times (after (Req rcd rc acd ac) y).
  move: dis; rewrite [after _ x]surjective_pairing [after _ y]surjective_pairing.
  by rewrite (distinct_perm tcd tc q1 q2).
have [ua1 ua2 ua3] := unzip_take za; have [ur1 ur2 ur3] := unzip_take zr.
have c := @remove_add_cycle _ _ _ _ _ tcd tc cd0 c0 gf _ (set_mode m_rem_add d)
  (take (size rcd) (zip rcd rc)) (take (size acd) (zip acd ac)) wt ok.
rewrite ur1 ur2 ur3 ua1 ua2 ua3 in c.
have s1' : {subset rcd <= y.1} by move=> o /s1; rewrite (perm_mem p1).
have s2' : {subset rc <= y.2} by move=> o /s2; rewrite (perm_mem p2).
have [d1 [r [e [_ zero] _ _ _]]] := c m1 u1 u2 s1' s2' disy.
have [ua ub _] := distinct_split (ok_dis ok).
exists d1; rewrite /try_update !pairs_some // -za -zr addnC eqxx /=.
rewrite (gtn_eqF m3) (gtn_eqF m1) /= ?andbF e; congr DOk; apply: zero.
  by rewrite (perm_size (perm_filter _ p1)).
rewrite -[RHS]w0; apply: weight_perm; rewrite ?perm_filter //.
  by apply: subseq_uniq (map_subseq tcd (filter_subseq _ _)) ua.
by apply: subseq_uniq (map_subseq tc (filter_subseq _ _)) ub.
Qed.

End Main.
