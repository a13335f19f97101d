(* One flavor at the end of a session: update_matrix and remove_rows_cols. *)
From mathcomp Require Import all_ssreflect ssralg ssrnum ssrint matrix ring zify.
From Verif Require Import Outcome MatLib MatSpec BlockLib FormulaProofs SrcFormulaModel SrcFormulaProofs
  SubModel SubSpec SubMath SubRows SubFlavor.

Set Implicit Arguments.
Unset Strict Implicit.
Unset Printing Implicit Defensive.

Import GRing.Theory Num.Theory.
Local Open Scope ring_scope.

Section Final.
Variables (F : numFieldType) (Tm : eqType) (ani : F).
Variable G0 : sop Tm -> sop Tm -> F.
Variable x0 : sop Tm.
Notation row := (arow F Tm).
Notation rA := (rA ani G0 x0).
Notation rf := (rf ani x0).
Notation static := (static ani G0 x0).
Notation has_tG := (has_tG G0 x0).
Notation gam_ok := (gam_ok ani x0).
Notation crows := (crows x0).
Let r0 : row := row0 F x0.
Let i0 : ginfo F := info0 F.
Notation poss info := [seq gi_pos x | x <- info].
Implicit Types (rs : seq row) (info : seq (ginfo F)).

Lemma set_alpha2 (r : row) (a b : F) : set_alpha (set_alpha r a) b = set_alpha r b. Proof. by []. Qed.
Lemma set_alpha_id (r : row) : set_alpha r (ar_alpha r) = r. Proof. by case: r => [[[[? ?] ?] ?] ?]. Qed.

(* ---- update_matrix ---- *)

Let scale (c : ginfo F -> F) := fun (a : fmat F) (x : ginfo F) (i j : nat) => if i == gi_pos x then a i j * c x else a i j.

Lemma scale_out c info (a : fmat F) i j : i \notin poss info -> foldl (scale c) a info i j = a i j.
Proof.
elim: info a => [//|x info IH] a /=; rewrite inE negb_or => /andP [h1 h2].
by rewrite IH // /scale (negbTE h1).
Qed.

Lemma scale_in c info (a : fmat F) x j : uniq (poss info) -> x \in info ->
  foldl (scale c) a info (gi_pos x) j = a (gi_pos x) j * c x.
Proof.
elim: info a => [//|y info IH] a /= /andP [ny u]; rewrite inE => /orP [/eqP ->|xi].
  by rewrite scale_out // /scale eqxx.
rewrite IH // /scale ifF //; apply/negP => /eqP e; case/negP: ny; rewrite -e; exact: map_f.
Qed.

Let setr := fun rs (x : ginfo F) =>
  if (gi_pos x < size rs)%N then set_nth r0 rs (gi_pos x) (set_alpha (nth r0 rs (gi_pos x)) (gi_a x)) else rs.

Lemma size_setr rs x : size (setr rs x) = size rs.
Proof. by rewrite /setr; case: ifP => // h; rewrite size_set_nth (maxn_idPr h). Qed.

Lemma setr_rows rs info : uniq (poss info) -> (forall x, x \in info -> (gi_pos x < size rs)%N) ->
  foldl setr rs info = crows rs info.
Proof.
elim: info rs => [|x info IH] rs /=; first by rewrite crows0.
case/andP => nx u lt.
have lx : (gi_pos x < size rs)%N by apply: lt; rewrite mem_head.
rewrite IH //; last by move=> y yi; rewrite size_setr; apply: lt; rewrite inE yi orbT.
apply: (@eq_from_nth _ r0); rewrite !size_crows size_setr // => p pl.
rewrite !nth_crows ?size_setr //.
have uc : uniq (poss (x :: info)) by rewrite /= nx.
have en : nth r0 (setr rs x) p = if p == gi_pos x then set_alpha (nth r0 rs p) (gi_a x) else nth r0 rs p.
  by rewrite /setr lx nth_set_nth /=; case: eqP => // ->.
rewrite en; case: (p =P gi_pos x) => [e|/eqP ne].
  rewrite e in en *; rewrite curf_out // set_alpha2 -/r0 en eqxx curf_in ?mem_head //.
congr set_alpha; case: (boolP (p \in poss info)) => [/mapP [y yi ->]|pn].
  by rewrite !curf_in // inE yi orbT.
by rewrite !curf_out ?en ?(negbTE ne) //= inE negb_or ne.
Qed.

Lemma crows_good rs info : all (fun r => good ani (ar_alpha r)) rs -> info_ok ani x0 rs info ->
  all (fun r => good ani (ar_alpha r)) (crows rs info).
Proof.
move=> g io; apply/(all_nthP r0) => p; rewrite size_crows => pl.
rewrite nth_crows // /set_alpha /=.
case: (boolP (p \in poss info)) => [/mapP [y yi ->]|pn].
  by rewrite curf_in ?(io_u io) //; apply: (io_g io).
by rewrite curf_out //; apply: (allP g _ (mem_nth r0 pl)).
Qed.

Lemma update_ok m g : static m -> (gm_info g != [::] -> has_tG m) -> gam_ok m g ->
  exists2 m1, ia_update ani x0 m g = Ok m1 & static m1 /\ ia_rows m1 = crows (ia_rows m) (gm_info g).
Proof.
move=> st htg [gn io gi]; rewrite /ia_update gn.
case: (altP (gm_info g =P [::])) => [e|ne].
  by rewrite e /=; exists m => //; rewrite crows0.
have tg := htg ne; rewrite size_eq0 (negbTE ne).
have ei : [seq nth i0 (gm_info g) l | l <- iota 0 (size (gm_info g))] = gm_info g by apply: mkseq_nth.
have ep : [seq gi_pos (nth i0 (gm_info g) l) | l <- iota 0 (size (gm_info g))] = poss (gm_info g).
  by rewrite -[in RHS]ei -map_comp.
rewrite -/i0 ei ep ifF; last first.
  by apply/negbTE/hasPn => x xi; apply: (io_ne io).
eexists; first by reflexivity.
have er := setr_rows (io_u io) (io_lt io); split=> //.
split=> /=; rewrite -/r0 -/setr er ?size_crows.
- exact: (st_n st).
- apply: inverse_of_ext (inv_cur st tg io gi); first exact: feq_refl.
  move=> i j il jl; rewrite /changed.
  set c := (fun x : ginfo F => 1 / (1 + gamma_func (eval_f ani (gi_a x)) (eval_f ani (gi_a0 x)))).
  set mat := fadd _ _.
  rewrite -[foldl _ _ _]/(foldl (scale c) mat (gm_info g)).
  case: (boolP (i \in poss (gm_info g))) => [/mapP [x xi ->]|ni]; last by rewrite scale_out // mul1r.
  rewrite scale_in ?(io_u io) // mulrC; congr (_ * _).
  rewrite /c; congr (1 / (1 + _)).
  by have := cur_sg io xi; rewrite /small_gamma => <-.
- exact: crows_good (st_good st) io.
Qed.

(* ---- remove_rows_cols ---- *)

Section Rem.
Variables (m : inva F Tm) (uids : seq nat).
Let rs := ia_rows m.
Let n := size rs.
Hypotheses (st : static m) (uu : uniq uids).
Let l u := [seq i <- iota 0 n | ar_uid (nth r0 rs i) == u].
Let P i := ar_uid (nth r0 rs i) \in uids.
Let present u := has (fun r => ar_uid r == u) rs.

Lemma present_l u : (size (l u) == 0%N) = ~~ present u.
Proof.
rewrite size_filter -leqn0 leqNgt -has_count; congr (~~ _); rewrite /present.
have e : rs = [seq nth r0 rs i | i <- iota 0 n] by apply: esym; apply: mkseq_nth.
by rewrite [in RHS]e has_map.
Qed.

Lemma find_rowsE u : find_rows x0 m u = if present u then Ok (l u) else Throw.
Proof. by rewrite /find_rows -/rs -/n -/(l u) present_l if_neg. Qed.

Lemma oseq_find us : oseq [seq find_rows x0 m u | u <- us] = if all present us then Ok (map l us) else Throw.
Proof.
elim: us => [//|u us IH] /=; rewrite find_rowsE; case: (present u) => //=.
by rewrite IH; case: (all present us).
Qed.

Lemma remove_throw : ~~ all present uids -> ia_remove x0 m uids = Throw.
Proof. by move=> /negbTE h; rewrite /ia_remove oseq_find h. Qed.

Lemma rc_mem us i : (i \in flatten (map l us)) = (i < n)%N && (ar_uid (nth r0 rs i) \in us).
Proof.
apply/flattenP/andP => [[k /mapP [u ui ->]]|[il ui]].
  by rewrite mem_filter mem_iota add0n => /andP [/eqP -> /andP [_ ->]].
exists (l (ar_uid (nth r0 rs i))); first exact: map_f.
by rewrite mem_filter eqxx mem_iota.
Qed.

Lemma rc_uniq us : uniq us -> uniq (flatten (map l us)).
Proof.
elim: us => [//|u us IH] /= /andP [nu u'].
rewrite cat_uniq IH // andbT filter_uniq ?iota_uniq //=.
apply/hasPn => i; rewrite rc_mem => /andP [_ ui]; apply/negP; rewrite /= mem_filter => /andP [/eqP e _].
by case/negP: nu; rewrite -e.
Qed.

Lemma rc_sort : sort leq (flatten (map l uids)) = [seq i <- iota 0 n | P i].
Proof.
apply: (sorted_eq leq_trans anti_leq).
- by apply: sort_sorted; apply: leq_total.
- by apply: sorted_filter; [apply: leq_trans | apply: iota_sorted].
rewrite perm_sort; apply: uniq_perm; rewrite ?rc_uniq ?filter_uniq ?iota_uniq // => i.
by rewrite rc_mem mem_filter mem_iota add0n andbC.
Qed.

Hypothesis nonint : forall r, r \in rs -> ar_uid r \in uids -> ar_alpha r = ani.

Lemma remove_ok : all present uids ->
  exists2 m2, ia_remove x0 m uids = Ok m2 &
    static m2 /\ perm_eq (ia_rows m2) [seq r <- rs | ar_uid r \notin uids].
Proof.
move=> pr; rewrite /ia_remove oseq_find pr /=.
have eall : rs = [seq nth r0 rs i | i <- iota 0 n] by apply: esym; apply: mkseq_nth.
have efil : [seq r <- rs | ar_uid r \notin uids] = [seq nth r0 rs i | i <- iota 0 n & ~~ P i].
  by rewrite [in LHS]eall filter_map.
rewrite -(size_sort leq (flatten (map l uids))) rc_sort; set R := filter _ _.
case: (posnP (size R)) => [z|pos].
  exists m => //; split=> //; rewrite (_ : filter _ _ = rs) //.
  apply/all_filterP/(all_nthP r0) => i il; apply/negP => h.
  have : i \in R by rewrite mem_filter [P i]h mem_iota.
  by rewrite (size0nil z).

have Rs : sorted ltn R by apply: sorted_filter; [apply: ltn_trans | apply: iota_ltn_sorted].
have Rl : all (fun p => p < n)%N R by apply/allP => i; rewrite mem_filter mem_iota => /and3P [].
have Ru : uniq R by rewrite filter_uniq ?iota_uniq.
have Rn : (size R <= n)%N by apply: size_le.
have eN : ia_n m = n := st_n st.
rewrite /ia_remove_at eN Rl ltnNge Rn /=; eexists; first by reflexivity.
have [p1 e2 p3] := exchanges_to_end_ok Rs Rl.
have swl : swaps_lt n (swap_list n (size R) R) by apply: swap_list_lt.
set Is := exchange_all _ _ in p1 e2 p3.
have sI : size Is = n by rewrite (perm_size p1) size_iota.
have eI i : (i < n)%N -> sig (swap_list n (size R) R) i = nth 0%N Is i.
  by move=> il; rewrite /Is exchange_all_swaps.
have eR : foldl (@swap_rows F Tm x0) rs (swap_list n (size R) R) = [seq nth r0 rs k | k <- Is].
  rewrite (swap_list_seq r0 (erefl n) swl); apply: (@eq_from_nth _ r0); rewrite !size_map size_iota ?sI // => i il.
  by rewrite !(nth_map 0%N) ?size_iota ?sI // nth_iota // add0n eI.
rewrite -/rs eR.
have pO : perm_eq (take (n - size R) Is) (others n R) := p3.
have eo : others n R = [seq i <- iota 0 n | ~~ P i].
  apply: eq_in_filter => i; rewrite mem_iota add0n => /andP [_ il].
  by rewrite mem_filter mem_iota add0n il leq0n !andbT.
rewrite -map_take; split; last by rewrite /= efil -eo; apply: perm_map.
set O := take _ _ in pO *.
have sO : size O = (n - size R)%N by rewrite (perm_size pO) size_others.
have uI : uniq Is by rewrite (perm_uniq p1) iota_uniq.
have uO : uniq O by apply: take_uniq.
split=> /=; rewrite ?size_map ?sO //.
- have hs : inverse_of n (select (rA rs) Is Is) (select (ia_mat m) Is Is).
    by apply: (inverse_of_select _ _ (st_inv st)).
  set rs' := [seq nth r0 rs k | k <- Is].
  have ers : rs' = [seq nth r0 rs k | k <- O] ++ [seq nth r0 rs k | k <- R].
    by rewrite /rs' -[in LHS](cat_take_drop (n - size R) Is) map_cat e2.
  have hs' : inverse_of n (rA rs') (foldl (@swap_both F) (ia_mat m) (swap_list n (size R) R)).
    apply: inverse_of_ext hs => i j il jl; first by apply: esym; apply: rA_sel; rewrite ?sI.
    by rewrite swapsE !eI.
  have en : n = (n - size R + size R)%N by rewrite subnK.
  rewrite {1}en in hs'.
  have aR : all (fun r => ar_alpha r == ani) [seq nth r0 rs k | k <- R].
    rewrite all_map; apply/allP => i; rewrite mem_filter mem_iota add0n => /and3P [Pi _ il] /=.
    by apply/eqP; apply: nonint => //; apply: mem_nth.
  have hf := rf_cat_non x0 aR (rs := [seq nth r0 rs k | k <- O]).
  rewrite !size_map sO -ers in hf.
  have := inv_restrict hf hs'; apply: inverse_of_ext; last exact: feq_refl.
  have := @rA_cat F Tm ani G0 x0 [seq nth r0 rs k | k <- O] [seq nth r0 rs k | k <- R].
  by rewrite size_map sO -ers.
- rewrite all_map; apply/allP => i io /=.
  apply: (allP (st_good st)); apply: mem_nth.
  by move: (mem_take io); rewrite (perm_mem p1) mem_iota.
Qed.

End Rem.

End Final.
