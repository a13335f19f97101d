(* One flavor of the submatrix update: the auxiliary matrix follows the alphas. *)
From mathcomp Require Import all_ssreflect ssralg ssrnum ssrint matrix ring zify.
From Verif Require Import Outcome MatLib MatSpec BlockLib FormulaProofs SrcFormulaModel SrcFormulaProofs
  SubModel SubSpec SubMath SubRows.

Set Implicit Arguments.
Unset Strict Implicit.
Unset Printing Implicit Defensive.

Import GRing.Theory.
Local Open Scope ring_scope.

Section Flavor.
Variables (F : numFieldType) (Tm : eqType) (ani : F).
Variable G0 : sop Tm -> sop Tm -> F.
Variable x0 : sop Tm.
Notation row := (arow F Tm).
Notation f := (eval_f ani).
Notation good := (good ani).
Notation rA := (rA ani G0 x0).
Notation rG := (rG G0 x0).
Notation rf := (rf ani x0).
Notation rdet := (rdet ani G0 x0).
Let r0 : row := row0 F x0.
Let i0 : ginfo F := info0 F.
Notation poss info := [seq gi_pos x | x <- info].
Implicit Types (rs : seq row) (info : seq (ginfo F)).

(* the alpha in force at a row *)
Definition curf rs info (p : nat) : F :=
  if p \in poss info then gi_a (nth i0 info (index p (poss info))) else ar_alpha (nth r0 rs p).
Definition crows rs info : seq row :=
  [seq set_alpha (nth r0 rs p) (curf rs info p) | p <- iota 0 (size rs)].

Record info_ok rs info : Prop := InfoOk {
  io_u : uniq (poss info);
  io_lt : forall x, x \in info -> (gi_pos x < size rs)%N;
  io_a0 : forall x, x \in info -> gi_a0 x = ar_alpha (nth r0 rs (gi_pos x));
  io_ne : forall x, x \in info -> gi_a x != gi_a0 x;
  io_g : forall x, x \in info -> good (gi_a x) }.

Lemma curf_in rs info x : uniq (poss info) -> x \in info -> curf rs info (gi_pos x) = gi_a x.
Proof.
move=> u xi; rewrite /curf map_f //.
have il : (index x info < size info)%N by rewrite index_mem.
have e : gi_pos x = nth 0%N (poss info) (index x info) by rewrite (nth_map i0) // nth_index.
by rewrite {1}e index_uniq ?size_map // nth_index.
Qed.

Lemma curf_out rs info p : p \notin poss info -> curf rs info p = ar_alpha (nth r0 rs p).
Proof. by rewrite /curf => /negbTE ->. Qed.

Lemma curf_perm rs info info' p : uniq (poss info) -> perm_eq info info' ->
  curf rs info p = curf rs info' p.
Proof.
move=> u pe; have u' : uniq (poss info') by rewrite -(perm_uniq (perm_map _ pe)).
case: (boolP (p \in poss info)) => pin.
  case/mapP: (pin) => x xi ->; rewrite !curf_in //; by rewrite -(perm_mem pe).
by rewrite !curf_out // -(perm_mem (perm_map _ pe)).
Qed.

Lemma crows_perm rs info info' : uniq (poss info) -> perm_eq info info' ->
  crows rs info = crows rs info'.
Proof. by move=> u pe; apply: eq_map => p; rewrite (curf_perm rs p u pe). Qed.

Lemma size_crows rs info : size (crows rs info) = size rs.
Proof. by rewrite size_map size_iota. Qed.

Lemma nth_crows rs info p : (p < size rs)%N ->
  nth r0 (crows rs info) p = set_alpha (nth r0 rs p) (curf rs info p).
Proof. by move=> pl; rewrite (nth_map 0%N) ?size_iota // nth_iota. Qed.

Lemma crows0 rs : crows rs [::] = rs.
Proof.
apply: (@eq_from_nth _ r0); rewrite size_crows // => p pl.
by rewrite nth_crows // /curf /=; case: (nth _ _ _) => [[]].
Qed.

Lemma info_ok_perm rs info info' : perm_eq info info' -> info_ok rs info -> info_ok rs info'.
Proof.
move=> pe [u lt a0 ne g]; split; last 4 first.
- by move=> x; rewrite -(perm_mem pe); apply: lt.
- by move=> x; rewrite -(perm_mem pe); apply: a0.
- by move=> x; rewrite -(perm_mem pe); apply: ne.
- by move=> x; rewrite -(perm_mem pe); apply: g.
by rewrite -(perm_uniq (perm_map _ pe)).
Qed.

Lemma info_ok_sub rs info info' : {subset info' <= info} -> uniq (poss info') -> info_ok rs info -> info_ok rs info'.
Proof.
move=> pe u' [u lt a0 ne g]; split=> //.
- by move=> x /pe; apply: lt.
- by move=> x /pe; apply: a0.
- by move=> x /pe; apply: ne.
- by move=> x /pe; apply: g.
Qed.

(* the number of changed rows, if every row started with the mark *)
Lemma count_info rs info : info_ok rs info -> all (fun r => ar_alpha r == ani) rs ->
  count (fun r => ar_alpha r != ani) (crows rs info) = size info.
Proof.
move=> io al; rewrite count_map -(size_map (@gi_pos F)) -size_filter; apply: perm_size.
apply: uniq_perm; [by rewrite filter_uniq ?iota_uniq | exact: (io_u io) |] => p.
have a0 q : (q < size rs)%N -> ar_alpha (nth r0 rs q) = ani by move=> ql; apply/eqP; apply: (allP al); apply: mem_nth.
rewrite mem_filter mem_iota add0n /=; apply/andP/idP => [[h pl]|/mapP [x xi ->]].
  by apply: contraR h => np; rewrite curf_out // a0.
by rewrite curf_in ?(io_u io) // (io_lt io xi) -(a0 _ (io_lt io xi)) -(io_a0 io xi) (io_ne io xi).
Qed.

(* ---- the static part of a session ---- *)

Record static (m : inva F Tm) : Prop := Static {
  st_n : ia_n m = size (ia_rows m);
  st_inv : inverse_of (size (ia_rows m)) (rA (ia_rows m)) (ia_mat m);
  st_good : all (fun r => good (ar_alpha r)) (ia_rows m) }.
Definition has_tG (m : inva F Tm) : Prop :=
  feq (size (ia_rows m)) (size (ia_rows m)) (ia_tG m)
      (fmul (size (ia_rows m)) (ia_mat m) (rG (ia_rows m))).

Lemma ia_AE m : ia_A ani G0 x0 m = rA (ia_rows m). Proof. by []. Qed.
Lemma ia_G0E m : ia_G0 G0 x0 m = rG (ia_rows m). Proof. by []. Qed.

Section Cur.
Variables (m : inva F Tm) (info : seq (ginfo F)).
Let rs := ia_rows m.
Let n := size rs.
Hypotheses (st : static m) (tg : has_tG m) (io : info_ok rs info).

Let f0 := rf rs.
Let f1 := rf (crows rs info).
Let sg p := (f1 p - f0 p) / f0 p.

Lemma rG_crows : feq n n (rG (crows rs info)) (rG rs).
Proof. by move=> i j il jl; rewrite /SubRows.rG !nth_crows. Qed.

Lemma cur_f1 p : (p < n)%N -> f1 p = f (curf rs info p).
Proof. by move=> pl; rewrite /f1 /SubRows.rf nth_crows. Qed.

Lemma cur_lps : all (fun p => p < n)%N (poss info).
Proof. by apply/allP => p /mapP [x xi ->]; apply: (io_lt io). Qed.

Lemma cur_same i : (i < n)%N -> i \notin poss info -> f1 i = f0 i.
Proof. by move=> il ni; rewrite cur_f1 // curf_out. Qed.

Lemma row_good p : (p < n)%N -> good (ar_alpha (nth r0 rs p)).
Proof. by move=> pl; apply: (allP (st_good st)); apply: mem_nth. Qed.

Lemma cur_nz p : p \in poss info -> f0 p != 0.
Proof. by move=> /(allP cur_lps) pl; apply: f_ne0; apply: row_good. Qed.

Lemma cur_sg x : x \in info -> sg (gi_pos x) = small_gamma ani (gi_a x) (gi_a0 x).
Proof.
move=> xi; have pl := io_lt io xi.
by rewrite /sg cur_f1 // curf_in ?(io_u io) // /small_gamma /gamma_func (io_a0 io xi).
Qed.

Lemma cur_df p : p \in poss info -> f1 p != f0 p.
Proof.
case/mapP => x xi ->; have pl := io_lt io xi.
rewrite cur_f1 // curf_in ?(io_u io) // /f0 /SubRows.rf; apply: f_inj.
- exact: (io_g io).
- exact: row_good.
- by rewrite -[X in _ != X](io_a0 io xi); apply: (io_ne io).
Qed.

Lemma cur_nz1 p : p \in poss info -> f1 p != 0.
Proof.
case/mapP => x xi ->; have pl := io_lt io xi.
by rewrite cur_f1 // curf_in ?(io_u io) //; apply: f_ne0; apply: (io_g io).
Qed.

Lemma nth_poss k : (k < size info)%N -> nth 0%N (poss info) k = gi_pos (nth i0 info k).
Proof. by move=> kl; rewrite (nth_map i0). Qed.

Lemma cur_Gam : feq (size info) (size info) (eval_gamma ani m info)
  (fun k l => ia_tG m (nth 0%N (poss info) k) (nth 0%N (poss info) l)
    - (if k == l then (1 + sg (nth 0%N (poss info) k)) / sg (nth 0%N (poss info) k) else 0)).
Proof.
move=> k l kl ll; rewrite /eval_gamma !nth_poss //.
case: eqP => _; last by rewrite subr0.
by rewrite cur_sg // mem_nth.
Qed.

Lemma cur_prod : \prod_(p <- poss info) - sg p = \prod_(x <- info) - small_gamma ani (gi_a x) (gi_a0 x).
Proof.
rewrite big_map big_seq_cond [RHS]big_seq_cond; apply: eq_bigr => x /andP [xi _].
by rewrite cur_sg.
Qed.

Lemma rdet_cur : rdet (crows rs info) =
  (\prod_(x <- info) - small_gamma ani (gi_a x) (gi_a0 x)) *
  det_of (size info) (eval_gamma ani m info) * rdet rs.
Proof.
rewrite -cur_prod /SubRows.rdet size_crows.
have sz : size (poss info) = size info by rewrite size_map.
have := det_change (st_inv st) tg (io_u io) cur_lps sz cur_same cur_nz cur_df.
rewrite -/sg => e.
transitivity (det_of n (amat (rG rs) f1)).
  by apply: fdet_ext; apply: amat_ext => //; apply: rG_crows.
rewrite e; congr (_ * _ * _).
by apply: esym; apply: fdet_ext; apply: cur_Gam.
Qed.

Lemma inv_cur Gi : inverse_of (size info) (eval_gamma ani m info) Gi ->
  inverse_of n (rA (crows rs info)) (changed (size info) (ia_mat m) (ia_tG m) f0 f1 (poss info) Gi).
Proof.
have sz : size (poss info) = size info by rewrite size_map.
move=> hg.
have hg' := inverse_of_ext cur_Gam (@feq_refl _ _ _ Gi) hg.
have := inv_change (st_inv st) tg (io_u io) cur_lps sz cur_same cur_nz cur_df cur_nz1 hg'.
apply: inverse_of_ext => //.
by apply: amat_ext => //; apply: feq_sym; apply: rG_crows.
Qed.

End Cur.

(* ---- the auxiliary matrix ---- *)

Record gam_ok (m : inva F Tm) (g : gmat F) : Prop := GamOk {
  ga_n : gm_n g = size (gm_info g);
  ga_io : info_ok (ia_rows m) (gm_info g);
  ga_inv : inverse_of (size (gm_info g)) (eval_gamma ani m (gm_info g)) (gm_mat g) }.

Lemma eval_gamma_cat (m : inva F Tm) info new :
  feq (size info + size new) (size info + size new) (eval_gamma ani m (info ++ new))
    (bordered (size info) (eval_gamma ani m info)
      (fun i j => ia_tG m (gi_pos (nth i0 (info ++ new) i)) (gi_pos (nth i0 (info ++ new) (j + size info))))
      (fun i j => ia_tG m (gi_pos (nth i0 (info ++ new) (i + size info))) (gi_pos (nth i0 (info ++ new) j)))
      (fun i j =>
        ia_tG m (gi_pos (nth i0 (info ++ new) (i + size info))) (gi_pos (nth i0 (info ++ new) (j + size info)))
        - (if i == j then
         let x := nth i0 (info ++ new) (i + size info) in
         let sg := small_gamma ani (gi_a x) (gi_a0 x) in (1 + sg) / sg
       else 0))).
Proof.
move=> i j il jl; rewrite /bordered /eval_gamma -/i0; case: (ltnP i (size info)) => i1; case: (ltnP j (size info)) => j1.
- by rewrite !nth_cat i1 j1.
- rewrite subnK //; case: eqP => // e; by move: i1; rewrite e ltnNge j1.
- rewrite subnK //; case: eqP => // e; by move: j1; rewrite -e ltnNge i1.
- rewrite !subnK //.
  have -> : (i - size info == j - size info)%N = (i == j).
    by apply/eqP/eqP => [e|->//]; rewrite -(subnK i1) e subnK.
  by case: eqP => _ //; rewrite subr0.
Qed.

Definition ginf (o : opu F) : ginfo F := (op_pos o, op_a0 o, op_an o).

Lemma foldl_prod (T : Type) (h : T -> F) (l : seq T) a : foldl (fun s o => s * h o) a l = a * \prod_(o <- l) h o.
Proof. by elim: l a => [|x l IH] a /=; rewrite ?big_nil ?mulr1 // big_cons IH mulrA. Qed.

(* adding *)
Lemma try_add_ok (m : inva F Tm) (g : gmat F) ops : static m -> has_tG m -> gam_ok m g ->
  let info' := gm_info g ++ map ginf ops in
  info_ok (ia_rows m) info' ->
  let: (g', r) := gm_try_add ani m g ops in
  [/\ rdet (crows (ia_rows m) info') = r * rdet (crows (ia_rows m) (gm_info g)),
      gm_reject_add g' = GM (gm_n g) (gm_mat g) (gm_info g) (gm_nn g') (gm_nj g') (gm_jn g') (gm_add g') (gm_kept g') (gm_rem g) (gm_work g) &
      (0 < size ops)%N -> rdet (crows (ia_rows m) info') != 0 ->
      exists2 g2, gm_perform_add g' = Ok g2 & gam_ok m g2 /\ gm_info g2 = info'].
Proof.
move=> st tg ga info' io'; rewrite /gm_try_add.
have eq1 := @eval_gamma_cat m (gm_info g) (map ginf ops); rewrite size_map in eq1.
have eD : rdet (crows (ia_rows m) info') =
    foldl (fun s o => s * - small_gamma ani (op_an o) (op_a0 o)) 1 ops *
    (det_of (size (gm_info g) + size ops) (eval_gamma ani m info') / det_of (size (gm_info g)) (eval_gamma ani m (gm_info g)))
    * rdet (crows (ia_rows m) (gm_info g)).
  rewrite (rdet_cur st tg io') (rdet_cur st tg (ga_io ga)) (foldl_prod (fun o => - small_gamma ani (op_an o) (op_a0 o))) mul1r.
  rewrite /info' size_cat size_map big_cat /= big_map.
  have := inverse_of_unit (ga_inv ga); move: (det_of _ _) => d nz.
  move: (det_of _ _) (\prod_(_ <- _) _) (\prod_(_ <- _) _) (rdet _) => a b c e.
  by field.
set nn := (X in GM _ _ _ X). set nj := (X in GM _ _ _ _ X). set jn := (X in GM _ _ _ _ _ X).
have eN : gm_n g = size (gm_info g) := ga_n ga.
have e2 : feq (size (gm_info g) + size ops) (size (gm_info g) + size ops) (eval_gamma ani m info')
   (bordered (size (gm_info g)) (eval_gamma ani m (gm_info g)) jn nj nn).
  by move=> i j il jl; rewrite (eq1 i j il jl) /jn /nj /nn eN.
have e3 := fdet_ext e2.
split.
- rewrite eD; congr (_ * _ * _).
  rewrite eN -!det_ofE in e3 *.
  rewrite [X in X / _]e3 (src_det_ratio_up_ok _ _ _ _ (ga_inv ga)) mulfK; last exact: inverse_of_unit (ga_inv ga).
  by rewrite /jn /nj /nn eN.
- rewrite /gm_reject_add /=; congr GM.
  by rewrite /vresize eN take_size_cat // size_cat subnDA subnn sub0n cats0.
- move=> s0 nz; rewrite /gm_perform_add /= eqxx /=.
  have nzB : det_of (gm_n g + size ops) (bordered (gm_n g) (eval_gamma ani m (gm_info g)) jn nj nn) != 0.
    move: nz; rewrite eD eN -!det_ofE in e3 * => nz; apply/eqP => z.
    by move: nz; rewrite [X in _ * (X / _)]e3 z !(mul0r, mulr0) eqxx.
  have gi := ga_inv ga; rewrite -eN in gi.
  have [res [r [-> hi _]]] := src_inverse_up2_ok s0 gi nzB.
  eexists; first by rewrite /=; reflexivity.
  split=> //; split=> //=; rewrite -/info' ?size_cat ?size_map ?eN //.
  rewrite eN in hi; apply: (inverse_of_ext (feq_sym e2) (@feq_refl _ _ _ res)).
  by rewrite ?eN.
Qed.


(* ---- removing ---- *)

Lemma oseq_ok (A B : Type) (P : pred A) (h : A -> outcome B) (k : A -> B) (l : seq A) :
  (forall x, P x -> h x = Ok (k x)) -> all P l -> oseq (map h l) = Ok (map k l).
Proof.
by move=> hk; elim: l => [//|x l IH] /= /andP [px pl]; rewrite hk //= IH.
Qed.

Lemma swap_list_seq (T : Type) (d : T) n (l : seq T) ps : size l = n -> swaps_lt n ps ->
  foldl (fun (l : seq T) (pq : nat * nat) => [seq nth d l (swapi pq.1 pq.2 i) | i <- iota 0 (size l)]) l ps
  = [seq nth d l (sig ps i) | i <- iota 0 n].
Proof.
move=> sz; elim: ps l sz => [|pq ps IH] l sz /=.
  by move=> _; rewrite -sz; apply: esym; exact: mkseq_nth.
case/andP => /andP [p1 p2] h; rewrite IH ?size_map ?size_iota //.
apply/eq_in_map => i; rewrite mem_iota add0n => /andP [_ il].
by rewrite (nth_map 0%N) ?size_iota ?sz ?nth_iota //; exact: sig_lt.
Qed.

Lemma eval_gamma_sel (m : inva F Tm) info Is : uniq Is -> all (fun i => i < size info)%N Is ->
  feq (size Is) (size Is) (eval_gamma ani m [seq nth i0 info i | i <- Is])
      (select (eval_gamma ani m info) Is Is).
Proof.
move=> u lt i j il jl; rewrite /eval_gamma /select !(nth_map 0%N) //.
by rewrite nth_uniq.
Qed.

Definition gold (o : opu F) : ginfo F := (op_pos o, op_a0 o, op_ac o).

Lemma uniq_info info : uniq (poss info) -> uniq info. Proof. exact: map_uniq. Qed.

Lemma arith_cut a b i : (i < if a - b < a then a - b else a)%N -> (i < a - b)%N.
Proof. by case: (ltnP (a - b) a) => // h il; apply: leq_trans il h. Qed.

Section Remove.
Variables (m : inva F Tm) (g : gmat F) (ops : seq (opu F)).
Let info := gm_info g.
Let n := size info.
Let ps := [seq op_pos o | o <- ops].
Let K := [seq x <- info | gi_pos x \notin ps].
Let R := map gold ops.
Hypotheses (st : static m) (tg : has_tG m) (ga : gam_ok m g).
Hypotheses (ups : uniq ps) (sub : all (fun o => gold o \in info) ops).

Lemma rem_perm : perm_eq info (K ++ R).
Proof.
have u := io_u (ga_io ga).
have pe : perm_eq info (K ++ [seq x <- info | ~~ (gi_pos x \notin ps)]).
  by rewrite perm_sym; apply/permPl; apply: perm_filterC.
apply: (perm_trans pe); rewrite perm_cat2l; apply: uniq_perm.
- by rewrite filter_uniq ?uniq_info.
- by apply: (@map_uniq _ _ (@gi_pos F)); rewrite -map_comp.
have poR : [seq gi_pos x | x <- R] = ps by rewrite -map_comp.
have subR : {subset R <= info}.
  by move=> x /(nthP i0) [i]; rewrite size_map => il <-; have /all_nthP := sub => /(_ (Opu 0%N 0 0 0) i il);
     rewrite (nth_map (Opu 0%N 0 0 0)).
move=> x; rewrite mem_filter negbK; apply/andP/idP => [[xp xi]|xR]; last first.
  by split; [rewrite -poR map_f | apply: subR].
move: xp; rewrite -poR => /mapP [y yR e].
suff -> : x = y by [].
have ix : (index x info < size info)%N by rewrite index_mem.
have iy : (index y info < size info)%N by rewrite index_mem subR.
have e' : nth 0%N (poss info) (index x info) = nth 0%N (poss info) (index y info).
  by rewrite !(nth_map i0) // !nth_index // subR.
have : index x info = index y info by apply/eqP; rewrite -(nth_uniq 0%N _ _ u) ?size_map // e'.
by move=> ei; rewrite -(nth_index i0 xi) ei nth_index ?subR.
Qed.

Let idx := [seq index (op_pos o) (poss info) | o <- ops].
Let rc := sort leq idx.

Lemma rem_find : oseq [seq find_gamma g (op_pos o) | o <- ops] = Ok idx.
Proof.
apply: (@oseq_ok _ _ (fun o => gold o \in info)) => // o oi; rewrite /find_gamma.
have -> : find (fun x => gi_pos x == op_pos o) (gm_info g) = index (op_pos o) (poss info).
  by rewrite /index find_map; apply: eq_find => x.
have pin : op_pos o \in poss info by rewrite -[op_pos o]/(gi_pos (gold o)) map_f.
by rewrite -(size_map (@gi_pos F)) index_mem pin.
Qed.

Lemma rem_idx_map : [seq nth 0%N (poss info) i | i <- idx] = ps.
Proof.
rewrite -map_comp /ps; elim: ops sub => [//|o l IH] /= /andP [oi ol]; rewrite IH // nth_index //.
by rewrite -[op_pos o]/(gi_pos (gold o)) map_f.
Qed.

Lemma rem_idx_uniq : uniq idx.
Proof. by apply: (@map_uniq _ _ (nth 0%N (poss info))); rewrite rem_idx_map. Qed.

Lemma rem_idx_lt : all (fun p => p < n)%N idx.
Proof.
rewrite /idx all_map; elim: ops sub => [//|o l IH] /= /andP [oi ol]; rewrite IH // andbT.
by rewrite /n -(size_map (@gi_pos F)) index_mem -[op_pos o]/(gi_pos (gold o)) map_f.
Qed.

Lemma rem_rc_uniq : uniq rc. Proof. by rewrite sort_uniq rem_idx_uniq. Qed.
Lemma rem_rc_lt : all (fun p => p < n)%N rc. Proof. by rewrite all_sort rem_idx_lt. Qed.
Lemma rem_rc_sorted : sorted ltn rc.
Proof. by rewrite ltn_sorted_uniq_leq rem_rc_uniq sort_sorted //; exact: leq_total. Qed.
Lemma rem_rc_size : size rc = size ops. Proof. by rewrite size_sort size_map. Qed.

Lemma rem_mem i : (i < n)%N -> (i \in rc) = (gi_pos (nth i0 info i) \in ps).
Proof.
move=> il; rewrite mem_sort -rem_idx_map -(nth_map i0 0%N (@gi_pos F)) //.
apply/idP/idP => [ii|]; first exact: map_f.
case/mapP => j ji e; suff -> : i = j by [].
have jl : (j < n)%N by apply: (allP rem_idx_lt).
by apply/eqP; rewrite -(nth_uniq 0%N _ _ (io_u (ga_io ga))) ?size_map // e.
Qed.

Lemma rem_K : [seq nth i0 info i | i <- others n rc] = K.
Proof.
have -> : others n rc = [seq i <- iota 0 n | gi_pos (nth i0 info i) \notin ps].
  by apply: eq_in_filter => i; rewrite mem_iota add0n => /andP [_ il]; rewrite rem_mem.
rewrite -(filter_map (nth i0 info) (fun x => gi_pos x \notin ps)) /K; congr filter.
exact: mkseq_nth.
Qed.

Lemma io_K : info_ok (ia_rows m) K.
Proof.
apply: (info_ok_sub _ _ (ga_io ga)); first by move=> x; rewrite mem_filter => /andP [].
have h : subseq (poss K) (poss info) by apply: map_subseq; apply: filter_subseq.
exact: (subseq_uniq h (io_u (ga_io ga))).
Qed.

Lemma rem_try : exists g' r,
  [/\ gm_try_remove ani g ops = Ok (g', r),
      rdet (crows (ia_rows m) K) = r * rdet (crows (ia_rows m) info),
      [/\ gm_n g' = gm_n g, gm_mat g' = gm_mat g & gm_info g' = gm_info g] &
      (0 < size ops)%N -> rdet (crows (ia_rows m) K) != 0 ->
      exists2 g2, gm_perform_remove g' = Ok g2 & gam_ok m g2 /\ perm_eq (gm_info g2) K].
Proof.
rewrite /gm_try_remove rem_find /=; eexists; eexists; split; [reflexivity| | by [] |].
  rewrite (rdet_cur st tg io_K) (rdet_cur st tg (ga_io ga)) -/info -/rc.
  rewrite (foldl_prod (fun o => - small_gamma ani (op_ac o) (op_a0 o))) mul1r.
  rewrite (perm_big _ rem_perm) big_cat /= big_map.
  have zK : size K = (n - size ops)%N by rewrite -rem_K size_map size_others ?rem_rc_uniq ?rem_rc_lt // rem_rc_size.
  have eK : det_of (size K) (eval_gamma ani m K) =
     src_det_ratio_down (size ops) rc (gm_mat g) * det_of n (eval_gamma ani m info).
    rewrite -(src_det_ratio_down_ok rem_rc_uniq rem_rc_lt rem_rc_size (ga_inv ga)) zK.
    apply: fdet_ext; rewrite -rem_K.
    have := @eval_gamma_sel m info (others n rc).
    rewrite size_others ?rem_rc_uniq ?rem_rc_lt // rem_rc_size; apply.
      by rewrite filter_uniq // iota_uniq.
    by apply/allP => i; rewrite mem_filter mem_iota => /and3P [].
  rewrite eK.
  have nz : \prod_(j <- ops) - small_gamma ani (gi_a (gold j)) (gi_a0 (gold j)) != 0.
    rewrite prodf_seq_neq0; elim: ops sub => [//|o l IH] /= /andP [oi ol]; rewrite IH // andbT.
    have pin : op_pos o \in poss info by rewrite -[op_pos o]/(gi_pos (gold o)) map_f.
    have := cur_sg (ga_io ga) oi; rewrite /small_gamma => <-.
    rewrite oppr_eq0 mulf_neq0 ?invr_eq0 ?(cur_nz st (ga_io ga)) //.
    by rewrite subr_eq0 (cur_df st (ga_io ga)).
  move: nz; rewrite /gold /gi_a /gi_a0 /=.
  move: (\prod_(j <- ops) _) (\prod_(_ <- K) _) (src_det_ratio_down _ _ _) (det_of _ _) (rdet _) => a b c d e nz.
  by field.
move=> s0 nz; rewrite /gm_perform_remove /= -/info -/rc.
have [pl _ po] := exchanges_to_end_ok rem_rc_sorted rem_rc_lt.
set o := take (n - size rc) _ in po.
have eN : gm_n g = n := ga_n ga.
have pK : perm_eq [seq nth i0 info i | i <- o] K by rewrite -rem_K; apply: perm_map.
have ioo : info_ok (ia_rows m) [seq nth i0 info i | i <- o].
  by apply: (info_ok_perm _ io_K); rewrite perm_sym.
have uo : uniq o by rewrite (perm_uniq po) filter_uniq ?iota_uniq.
have lo : all (fun i => i < size info)%N o.
  by rewrite (perm_all _ po); apply/allP => i; rewrite mem_filter mem_iota => /and3P [].
have zo : size o = (n - size rc)%N by rewrite (perm_size po) size_others ?rem_rc_uniq ?rem_rc_lt.
have es := eval_gamma_sel m uo lo.
have nzo : det_of (n - size rc) (select (eval_gamma ani m info) o o) != 0.
  rewrite -zo det_ofE -(fdet_ext es).
  apply/eqP => z; move: nz; rewrite -(crows_perm _ (io_u ioo) pK) (rdet_cur st tg ioo) size_map.
  by rewrite det_ofE z mulr0 mul0r eqxx.
have s0' : (0 < size rc)%N by rewrite rem_rc_size.
rewrite eN.
have [res [r [-> hi _]]] := src_inverse_down_ok s0' rem_rc_lt rem_rc_uniq (erefl _) (ga_inv ga) nzo.
rewrite /=; eexists; first by reflexivity.
have swl : swaps_lt n (exchanges_to_end n rc) by rewrite -swap_listE; apply: swap_list_lt => //; exact: rem_rc_lt.
have le : (size rc <= n)%N by apply: size_le rem_rc_uniq rem_rc_lt.
have ei : vresize i0 (n - size rc) (foldl (@swap_info F) info (exchanges_to_end n rc)) = [seq nth i0 info i | i <- o].
  rewrite /vresize (swap_list_seq _ (erefl n) swl) size_map size_iota.
  have -> : (n - size rc - n = 0)%N by lia.
  rewrite cats0 -map_take.
  apply: (@eq_from_nth _ i0); first by rewrite !size_map zo size_take size_iota; case: ltnP; lia.
  move=> i; rewrite size_map size_take size_iota => il.
  have il' : (i < n - size rc)%N by apply: arith_cut il.
  have in' : (i < n)%N by apply: leq_trans il' _; apply: leq_subr.
  rewrite !(nth_map 0%N) ?zo // ?size_take ?size_iota // !nth_take // nth_iota // add0n.
  by rewrite exchange_all_swaps // rem_rc_lt.
split=> //=; last by rewrite ei.
split=> /=; rewrite ?ei ?size_map //.
by apply: (inverse_of_ext (feq_sym es) (@feq_refl _ _ _ _)); rewrite zo.
Qed.

End Remove.


(* ---- a request on one flavor ---- *)

Definition opu_tup (o : opu F) := (op_pos o, op_a0 o, op_ac o, op_an o).
Definition tup_opu (t : nat * F * F * F) : opu F := Opu t.1.1.1 t.1.1.2 t.1.2 t.2.
Lemma opu_tupK : cancel opu_tup tup_opu. Proof. by case. Qed.
Definition opu_eqMixin := CanEqMixin opu_tupK.
Canonical opu_eqType := Eval hnf in EqType (opu F) opu_eqMixin.

Record ops_ok rs info (ops : seq (opu F)) : Prop := OpsOk {
  oo_u : uniq [seq op_pos o | o <- ops];
  oo_lt : forall o, o \in ops -> (op_pos o < size rs)%N;
  oo_a0 : forall o, o \in ops -> op_a0 o = ar_alpha (nth r0 rs (op_pos o));
  oo_ac : forall o, o \in ops -> op_ac o = curf rs info (op_pos o);
  oo_g : forall o, o \in ops -> good (op_an o) }.

Let o0 : opu F := Opu 0%N 0 0 0.
Definition tgt rs info (ops : seq (opu F)) (p : nat) : F :=
  let ps := [seq op_pos o | o <- ops] in
  if p \in ps then op_an (nth o0 ops (index p ps)) else curf rs info p.
Definition target rs info (ops : seq (opu F)) : seq row :=
  [seq set_alpha (nth r0 rs p) (tgt rs info ops p) | p <- iota 0 (size rs)].

Lemma tgt_in rs info (ops : seq (opu F)) o : uniq [seq op_pos o | o <- ops] -> o \in ops ->
  tgt rs info ops (op_pos o) = op_an o.
Proof.
move=> u oi; rewrite /tgt map_f //.
have il : (index o ops < size ops)%N by rewrite index_mem.
have e : op_pos o = nth 0%N [seq op_pos o | o <- ops] (index o ops) by rewrite (nth_map o0) // nth_index.
by rewrite {1}e index_uniq ?size_map // nth_index.
Qed.

Lemma tgt_out rs info (ops : seq (opu F)) p : p \notin [seq op_pos o | o <- ops] ->
  tgt rs info ops p = curf rs info p.
Proof. by rewrite /tgt => /negbTE ->. Qed.

Lemma target_eq rs info ops info' : 
  (forall p, (p < size rs)%N -> curf rs info' p = tgt rs info ops p) -> crows rs info' = target rs info ops.
Proof.
by move=> h; apply/eq_in_map => p; rewrite mem_iota add0n => /andP [_ pl]; rewrite h.
Qed.

(* the matrices and lists a rejected request has to leave alone *)
Definition same_gam (g g' : gmat F) : Prop :=
  [/\ gm_n g' = gm_n g, gm_mat g' = gm_mat g & gm_info g' = gm_info g].

Lemma gam_ok_same m g g' : same_gam g g' -> gam_ok m g -> gam_ok m g'.
Proof. by move=> [e1 e2 e3] [h1 h2 h3]; split; rewrite ?e1 ?e2 ?e3. Qed.

(* the same rows and the same matrix, in another order *)
Definition perm_gam (g g' : gmat F) : Prop :=
  exists Is, [/\ perm_eq Is (iota 0 (gm_n g)), gm_n g' = gm_n g,
    gm_info g' = [seq nth i0 (gm_info g) i | i <- Is] &
    forall i j, (i < gm_n g)%N -> (j < gm_n g)%N ->
      gm_mat g' i j = gm_mat g (nth 0%N Is i) (nth 0%N Is j)].

Lemma same_perm_gam g g' : gm_n g = size (gm_info g) -> same_gam g g' -> perm_gam g g'.
Proof.
move=> en [e1 e2 e3]; exists (iota 0 (gm_n g)); split=> //.
  by rewrite e3 en; apply: esym; exact: mkseq_nth.
by move=> i j il jl; rewrite e2 !nth_iota.
Qed.

Lemma perm_gam_info m g g' : gam_ok m g -> perm_gam g g' -> perm_eq (gm_info g') (gm_info g).
Proof.
move=> ga [Is [pe _ -> _]]; rewrite -{2}(mkseq_nth i0 (gm_info g)) -(ga_n ga).
exact: perm_map.
Qed.

Lemma gam_ok_perm m g g' : gam_ok m g -> perm_gam g g' -> gam_ok m g'.
Proof.
move=> ga pg; have pi := perm_gam_info ga pg; case: pg => Is [pe en ei em].
have sz : size (gm_info g') = gm_n g by rewrite (perm_size pi) (ga_n ga).
have sI : size Is = gm_n g by rewrite (perm_size pe) size_iota.
split; first by rewrite en sz.
  by apply: (info_ok_perm _ (ga_io ga)); rewrite perm_sym.
have gi := ga_inv ga; rewrite -(ga_n ga) in gi; rewrite sz.
apply: inverse_of_ext (inverse_of_select pe pe gi) => i j il jl; last by rewrite em.
rewrite ei -sI in il jl *; apply: esym; apply: eval_gamma_sel => //.
  by rewrite (perm_uniq pe) iota_uniq.
by rewrite (perm_all _ pe); apply/allP => k; rewrite mem_iota -(ga_n ga).
Qed.

Section Request.
Variables (m : inva F Tm) (g : gmat F) (ops : seq (opu F)) (junk : fmat F).
Let rs := ia_rows m.
Let info := gm_info g.
Hypotheses (st : static m) (tg : has_tG m) (ga : gam_ok m g) (oo : ops_ok rs info ops).
Let rem := [seq o <- ops | goes_rem o].
Let ins := [seq o <- ops | goes_ins o].
Let rep := [seq o <- ops | goes_rep o].

Lemma classify o : o \in ops -> op_ac o != op_an o -> [|| o \in rem, o \in ins | o \in rep].
Proof.
move=> oi h; rewrite !mem_filter oi !andbT /goes_rem /goes_ins /goes_rep h andbT.
by case: (eqVneq (op_a0 o) (op_ac o)) => [->|_] /=; rewrite ?h //; case: (_ == _).
Qed.

Lemma in_info_ne o : o \in ops -> (op_pos o \in poss info) = (op_a0 o != op_ac o).
Proof.
move=> oi; rewrite (oo_a0 oo oi) (oo_ac oo oi); apply/idP/idP => [/mapP [x xi ->]|].
  rewrite curf_in ?(io_u (ga_io ga)) // -(io_a0 (ga_io ga) xi) eq_sym; exact: (io_ne (ga_io ga)).
by apply: contraR => h; rewrite curf_out.
Qed.

Lemma gold_in o : o \in rem -> gold o \in info.
Proof.
rewrite mem_filter => /andP [/andP [h _] oi].
have := h; rewrite -(in_info_ne oi) => /mapP [x xi ex].
suff -> : gold o = x by [].
rewrite /gold ex (oo_a0 oo oi) (oo_ac oo oi) ex curf_in ?(io_u (ga_io ga)) //.
by rewrite -(io_a0 (ga_io ga) xi); case: (x) => [[]].
Qed.

Lemma sub_pos (P : pred (opu F)) : uniq [seq op_pos o | o <- ops & P o].
Proof.
have h : subseq [seq op_pos o | o <- ops & P o] [seq op_pos o | o <- ops].
  by apply: map_subseq; apply: filter_subseq.
exact: (subseq_uniq h (oo_u oo)).
Qed.

Lemma ops_pos_inj o o' : o \in ops -> o' \in ops -> op_pos o = op_pos o' -> o = o'.
Proof.
move=> oi oi' e; have := oo_u oo => u.
have i1 : (index o ops < size ops)%N by rewrite index_mem.
have i2 : (index o' ops < size ops)%N by rewrite index_mem.
suff ei : index o ops = index o' ops by rewrite -(nth_index o0 oi) ei nth_index.
by apply/eqP; rewrite -(nth_uniq 0%N _ _ u) ?size_map // !(nth_map o0) // !nth_index // e.
Qed.

Lemma ins_io : info_ok rs (info ++ map ginf ins).
Proof.
have noi o : o \in ins -> op_pos o \notin poss info.
  rewrite mem_filter => /andP [/andP [/eqP h _] oi].
  by rewrite (in_info_ne oi) h eqxx.
have mi x : x \in map ginf ins -> exists2 o, o \in ins & x = ginf o by case/mapP => o; exists o.
split.
- rewrite map_cat cat_uniq (io_u (ga_io ga)) /= -map_comp sub_pos andbT.
  by apply/hasPn => p /mapP [o oi ->]; apply: noi.
- move=> x; rewrite mem_cat => /orP [|/mi [o oi ->]]; first exact: (io_lt (ga_io ga)).
  by apply: (oo_lt oo); move: oi; rewrite mem_filter => /andP [].
- move=> x; rewrite mem_cat => /orP [|/mi [o oi ->]]; first exact: (io_a0 (ga_io ga)).
  by apply: (oo_a0 oo); move: oi; rewrite mem_filter => /andP [].
- move=> x; rewrite mem_cat => /orP [|/mi [o oi ->]]; first exact: (io_ne (ga_io ga)).
  by move: oi; rewrite mem_filter => /andP [/andP [_ h] _]; rewrite eq_sym.
- move=> x; rewrite mem_cat => /orP [|/mi [o oi ->]]; first exact: (io_g (ga_io ga)).
  by apply: (oo_g oo); move: oi; rewrite mem_filter => /andP [].
Qed.

(* no replaced alpha, and not both kinds of changes *)
Hypothesis simp : rep = [::] /\ (rem = [::] \/ ins = [::]).

Lemma target_none : rem = [::] -> ins = [::] -> target rs info ops = crows rs info.
Proof.
move=> re ie; apply: esym; apply: target_eq => p pl.
case: (boolP (p \in [seq op_pos o | o <- ops])) => [/mapP [o oi ->]|h]; last by rewrite tgt_out.
rewrite tgt_in ?(oo_u oo) // -(oo_ac oo oi); apply/eqP; apply/negPn/negP => h.
by have := classify oi h; rewrite re ie simp.1.
Qed.

Lemma target_ins : rem = [::] -> crows rs (info ++ map ginf ins) = target rs info ops.
Proof.
move=> re; have io := ins_io; apply: target_eq => p pl.
case: (boolP (p \in [seq op_pos o | o <- ops])) => [/mapP [o oi ->]|h].
  rewrite tgt_in ?(oo_u oo) //; case: (eqVneq (op_ac o) (op_an o)) => e; last first.
    have := classify oi e; rewrite re simp.1 in_nil orbF /= => oin.
    rewrite -[op_pos o]/(gi_pos (ginf o)) curf_in ?(io_u io) //.
    by rewrite mem_cat map_f ?orbT.
  rewrite -e (oo_ac oo oi) /curf map_cat mem_cat -map_comp.
  have -> : (op_pos o \in [seq (@gi_pos F \o ginf) i | i <- ins]) = false.
    apply/negP => /mapP [o' o'i eo].
    have oe : o = o' by apply: ops_pos_inj => //; move: o'i; rewrite mem_filter => /andP [].
    by move: o'i; rewrite -oe mem_filter /goes_ins e => /andP [/andP [/eqP ->]]; rewrite eqxx.
  rewrite orbF; case: ifP => // pin; rewrite index_cat pin nth_cat ifT //.
  by rewrite -(size_map (@gi_pos F)) index_mem.
rewrite tgt_out // /curf map_cat mem_cat.
have -> : (p \in [seq gi_pos i | i <- [seq ginf i | i <- ins]]) = false.
  apply/negP => /mapP [x /mapP [o oi ->] e]; case/negP: h; rewrite e; apply: map_f.
  by move: oi; rewrite mem_filter => /andP [].
rewrite orbF; case: ifP => // pin; rewrite index_cat pin nth_cat ifT //.
by rewrite -(size_map (@gi_pos F)) index_mem.
Qed.

Lemma target_rem : ins = [::] ->
  crows rs [seq x <- info | gi_pos x \notin [seq op_pos o | o <- rem]] = target rs info ops.
Proof.
move=> ie; set K := filter _ _; apply: target_eq => p pl.
have uK : uniq (poss K).
  have h : subseq (poss K) (poss info) by apply: map_subseq; apply: filter_subseq.
  exact: (subseq_uniq h (io_u (ga_io ga))).
have keep q : q \notin [seq op_pos o | o <- rem] -> curf rs K q = curf rs info q.
  move=> qn; case: (boolP (q \in poss info)) => [/mapP [x xi e]|qi].
    by rewrite e !curf_in ?(io_u (ga_io ga)) // mem_filter xi andbT -e.
  rewrite !curf_out //; apply: contra qi => /mapP [x]; rewrite mem_filter => /andP [_ xi] ->.
  exact: map_f.
case: (boolP (p \in [seq op_pos o | o <- ops])) => [/mapP [o oi ->]|h]; last first.
  rewrite tgt_out // keep //; apply: contra h => /mapP [o oi ->]; apply: map_f.
  by move: oi; rewrite mem_filter => /andP [].
rewrite tgt_in ?(oo_u oo) //; case: (eqVneq (op_ac o) (op_an o)) => e.
  rewrite keep -?e ?(oo_ac oo oi) //; apply/negP => /mapP [o' o'i eo].
  have oe : o = o' by apply: ops_pos_inj => //; move: o'i; rewrite mem_filter => /andP [].
  by move: o'i; rewrite -oe mem_filter /goes_rem e => /andP [/andP [/negbTE ->]].
have := classify oi e; rewrite ie simp.1 in_nil !orbF => orem.
have := orem; rewrite mem_filter => /andP [/andP [_ /eqP <-] _].
rewrite (oo_a0 oo oi) curf_out //; apply/mapP => [[x]]; rewrite mem_filter => /andP [h _] ex.
by case/negP: h; rewrite -ex map_f.
Qed.

Lemma flavor_ok : exists g' r,
  [/\ try_flavor ani m g rem ins rep = Ok (g', r),
      rdet (target rs info ops) = r * rdet (crows rs info),
      exists2 g3, reject_flavor g' rem ins rep = Ok g3 & same_gam g g3 &
      rdet (target rs info ops) != 0 ->
      exists2 g2, perform_flavor junk g' rem ins rep = Ok g2 &
        gam_ok m g2 /\ crows rs (gm_info g2) = target rs info ops].
Proof.
rewrite /try_flavor /reject_flavor /perform_flavor simp.1 /=.
case: (eqVneq (size rem) 0%N) => [/size0nil re|re]; case: (eqVneq (size ins) 0%N) => [/size0nil ie|ie].
- exists g, 1; rewrite target_none // mul1r; split=> //; first by exists g.
  by move=> _; exists g.
- have [h1 h2 h3] := try_add_ok st tg ga ins_io.
  exists (gm_try_add ani m g ins).1, (gm_try_add ani m g ins).2; rewrite -(target_ins re); split=> //.
    exists (gm_reject_add (gm_try_add ani m g ins).1) => //.
    have e : gm_reject_add (gm_try_add ani m g ins).1 = _ := h2.
    by rewrite e.
  move=> nz; have [|//|g2 e [ga2 ei]] := h3; first by rewrite lt0n.
  by exists g2 => //; rewrite ei.
- have sub : all (fun o => gold o \in info) rem by apply/allP => o; apply: gold_in.
  have [g' [r [e1 e2 e3 h]]] := rem_try st tg ga (sub_pos _) sub.
  exists g', r; rewrite e1 -(target_rem ie); split=> //; first by exists g'.
  move=> nz; have [|//|g2 e [ga2 ei]] := h; first by rewrite lt0n.
  exists g2 => //; split=> //; apply: crows_perm => //; exact: (io_u (ga_io ga2)).
- by case: simp => _ [] e; [move: re | move: ie]; rewrite e eqxx.
Qed.

End Request.

(* ---- a request that switches rows on and off ---- *)

Section Mixed.
Variables (m : inva F Tm) (g : gmat F) (ops : seq (opu F)) (junk : fmat F).
Let rs := ia_rows m.
Let info := gm_info g.
Hypotheses (st : static m) (tg : has_tG m) (ga : gam_ok m g) (oo : ops_ok rs info ops).
Let rem := [seq o <- ops | goes_rem o].
Let ins := [seq o <- ops | goes_ins o].
Let rep := [seq o <- ops | goes_rep o].
Hypothesis norep : rep = [::].
Let K := [seq x <- info | gi_pos x \notin [seq op_pos o | o <- rem]].

Lemma mix_io : info_ok rs (K ++ map ginf ins).
Proof.
have io := ins_io ga oo.
apply: (info_ok_sub _ _ io).
  by move=> x; rewrite !mem_cat mem_filter => /orP [/andP [_ ->]|->] //; rewrite orbT.
have h : subseq (poss (K ++ map ginf ins)) (poss (info ++ map ginf ins)).
  by rewrite !map_cat cat_subseq // map_subseq // filter_subseq.
exact: (subseq_uniq h (io_u io)).
Qed.

Lemma mix_target : crows rs (K ++ map ginf ins) = target rs info ops.
Proof.
have io := mix_io; apply: target_eq => p pl.
have notin q : q \notin [seq op_pos o | o <- rem] -> q \notin [seq op_pos o | o <- ins] ->
    curf rs (K ++ map ginf ins) q = curf rs info q.
  move=> q1 q2; case: (boolP (q \in poss info)) => [/mapP [x xi e]|qi].
    rewrite e !curf_in ?(io_u (ga_io ga)) ?(io_u io) // mem_cat mem_filter xi andbT -e.
    by rewrite q1.
  rewrite !curf_out // map_cat mem_cat negb_or -map_comp q2 andbT.
  apply: contra qi => /mapP [x]; rewrite mem_filter => /andP [_ xi] ->; exact: map_f.
have subl (P : pred (opu F)) q : q \notin [seq op_pos o | o <- ops] -> q \notin [seq op_pos o | o <- ops & P o].
  by apply: contra => /mapP [o]; rewrite mem_filter => /andP [_ oi] ->; apply: map_f.
case: (boolP (p \in [seq op_pos o | o <- ops])) => [/mapP [o oi ->]|h]; last first.
  by rewrite tgt_out // notin // subl.
have only (P : pred (opu F)) : ~~ P o -> op_pos o \notin [seq op_pos o | o <- ops & P o].
  move=> np; apply/negP => /mapP [o']; rewrite mem_filter => /andP [po' oi'] eo.
  by move: np; rewrite (ops_pos_inj oo oi oi' eo) po'.
rewrite tgt_in ?(oo_u oo) //; case: (eqVneq (op_ac o) (op_an o)) => e.
  rewrite notin; first by rewrite -e (oo_ac oo oi).
    by apply: only; rewrite /goes_rem -e; case: (op_a0 o == _).
  by apply: only; rewrite /goes_ins -e; case: (op_a0 o =P _) => // ->; rewrite eqxx.
have := classify oi e; rewrite -/rep norep in_nil orbF => /orP [] oin.
  have := oin; rewrite mem_filter => /andP [/andP [n0 /eqP e0] _]; rewrite -e0 (oo_a0 oo oi) curf_out //.
  rewrite map_cat mem_cat negb_or -map_comp; apply/andP; split; last first.
    by apply: (only (@goes_ins F)); rewrite /goes_ins (negbTE n0).
  apply/mapP => [[x]]; rewrite mem_filter => /andP [h _] ex; case/negP: h; rewrite -ex.
  exact: map_f.
by rewrite -[op_pos o]/(gi_pos (ginf o)) curf_in ?(io_u io) // mem_cat map_f ?orbT.
Qed.

Lemma mix_ok : exists g' r,
  [/\ try_flavor ani m g rem ins rep = Ok (g', r),
      rdet (crows rs K) != 0 -> rdet (target rs info ops) = r * rdet (crows rs info) &
      exists2 g3, reject_flavor g' rem ins rep = Ok g3 & perm_gam g g3].
Proof.
case: (eqVneq (size rem) 0%N) => [/size0nil re|re].
  have [|g' [r [e1 e2 [g3 e3 sg] _]]] := flavor_ok junk st tg ga oo; first by split=> //; left.
  exists g', r; split=> //; exists g3 => //; apply: same_perm_gam sg; exact: (ga_n ga).
case: (eqVneq (size ins) 0%N) => [/size0nil ie|ie].
  have [|g' [r [e1 e2 [g3 e3 sg] _]]] := flavor_ok junk st tg ga oo; first by split=> //; right.
  exists g', r; split=> //; exists g3 => //; apply: same_perm_gam sg; exact: (ga_n ga).
rewrite /try_flavor /reject_flavor norep (negbTE re) (negbTE ie) /=.
have sub : all (fun o => gold o \in info) rem by apply/allP => o; apply: (gold_in ga oo).
have ups := sub_pos oo (@goes_rem F).
rewrite /gm_try_add_remove (rem_find sub) /=.
have lt := rem_rc_lt sub; have u := rem_rc_uniq ups sub; have so := rem_rc_sorted ups sub.
set rc := sort leq _ in lt u so *.
have zr : size rc = size rem by rewrite size_sort size_map.
have le : (size rem <= size info)%N by rewrite -zr; apply: size_le u lt.
have eN : gm_n g = size info := ga_n ga.
set sl := swap_list _ _ _.
have swl : swaps_lt (size info) sl by rewrite /sl eN; apply: swap_list_lt.
rewrite eN ltnNge le (swap_list_seq _ (erefl _) swl) /=.
set info1 := map _ (iota 0 _); set info' := info1 ++ _; set mat1 := foldl _ _ _.
have z1 : size info1 = size info by rewrite size_map size_iota.
eexists; eexists; split; first by reflexivity.
  move=> nz; set kept := (size info - size rem)%N.
  have kl : (kept <= size info)%N by apply: leq_subr.
  have [pl _ po] := exchanges_to_end_ok so lt.
  set o := take (size info - size rc) _ in po.
  pose Kp := take kept info1.
  have zKp : size Kp = kept by rewrite size_take z1; case: ltnP => // kl2; apply: anti_leq; rewrite kl kl2.
  have eKp : [seq nth i0 info i | i <- o] = Kp.
    have zo : size o = kept by rewrite (perm_size po) size_others // zr.
    apply: (@eq_from_nth _ i0); first by rewrite size_map zo zKp.
    move=> i; rewrite size_map zo => il.
    have il' : (i < size info)%N by apply: leq_trans il kl.
    rewrite (nth_map 0%N) ?zo // /Kp nth_take // /info1 (nth_map 0%N) ?size_iota // nth_iota // add0n.
    rewrite /o nth_take ?zr // exchange_all_swaps //.
    by rewrite /sl eN -zr swap_listE.
  have pK : perm_eq Kp K by rewrite -eKp -[K](rem_K ga sub); apply: perm_map.
  set T := Kp ++ map ginf ins.
  have pT : perm_eq T (K ++ map ginf ins) by rewrite perm_cat2r.
  have ioT : info_ok rs T by apply: (info_ok_perm _ mix_io); rewrite perm_sym.
  have ioK : info_ok rs Kp.
    by apply: (@info_ok_perm rs K); [rewrite perm_sym | exact: io_K].
  have zT : size T = (kept + size ins)%N by rewrite size_cat zKp size_map.
  have p1 : perm_eq info1 info.
    rewrite -[X in perm_eq _ X](mkseq_nth i0 info) /info1 (map_comp (nth i0 info) (sig sl)); apply: perm_map; exact: sig_perm.
  have io1 : info_ok rs info1 by apply: (info_ok_perm _ (ga_io ga)); rewrite perm_sym.
  have pin : perm_eq info1 (Kp ++ map gold rem).
    apply: (perm_trans p1); apply: (perm_trans (rem_perm ga ups sub)).
    by rewrite perm_cat2r perm_sym.
  rewrite -mix_target -(crows_perm _ (io_u ioT) pT) -(crows_perm _ (io_u io1) p1).
  rewrite (rdet_cur st tg ioT) (rdet_cur st tg io1) zT z1.
  rewrite (perm_big _ pin) !big_cat /= !big_map.
  rewrite !(foldl_prod (fun o => - small_gamma ani (op_ac o) (op_a0 o))) (foldl_prod (fun o => - small_gamma ani (op_an o) (op_a0 o))) !mul1r.
  have inv1 : inverse_of (kept + size rem) (eval_gamma ani m info1) mat1.
    rewrite subnK //; apply: inverse_of_ext (inverse_of_swaps swl (ga_inv ga)) => i j il jl //.
    rewrite swapsE /info1 (map_comp (nth i0 info) (sig sl)); apply: esym.
    have := @eval_gamma_sel m info [seq sig sl i | i <- iota 0 (size info)].
    rewrite size_map size_iota => -> //; first by rewrite /select !nth_sig.
      by rewrite (perm_uniq (sig_perm swl)) iota_uniq.
    by rewrite (perm_all _ (sig_perm swl)); apply/allP => k; rewrite mem_iota.
  have nz1 : det_of kept (eval_gamma ani m info1) != 0.
    have -> : det_of kept (eval_gamma ani m info1) = det_of (size Kp) (eval_gamma ani m Kp).
      by rewrite zKp; apply: fdet_ext => i j il jl; rewrite /eval_gamma /Kp !nth_take.
    apply/eqP => z; move: nz; rewrite -(crows_perm _ (io_u ioK) pK) (rdet_cur st tg ioK).
    by rewrite z mulr0 mul0r eqxx.
  set jn := (X in src_ratio_replace_rows_cols _ _ _ _ X); set nj := (X in src_ratio_replace_rows_cols _ _ _ _ _ X);
    set nn := (X in src_ratio_replace_rows_cols _ _ _ _ _ _ X).
  have := src_ratio_replace_rows_cols_ok (size ins) jn nj nn inv1 nz1; rewrite subnK //.
  have -> : det_of (kept + size ins) (bordered kept (eval_gamma ani m info1) jn nj nn) =
            det_of (kept + size ins) (eval_gamma ani m T).
    pose h i := if (i < kept)%N then i else (size info + (i - kept))%N.
    have nh i : (i < kept + size ins)%N -> nth i0 T i = nth i0 info' (h i).
      move=> il; rewrite /T /h nth_cat zKp; case: (ltnP i kept) => i1.
        by rewrite /info' nth_cat z1 (leq_trans i1 kl) /Kp nth_take.
      by rewrite /info' nth_cat z1 ltnNge leq_addr /= addKn.
    apply: fdet_ext => i j il jl; rewrite {2}/eval_gamma -/i0 !nh //.
    have -> : (i == j) = (h i == h j).
      rewrite /h; move: kl; clear; case: (ltnP i kept); case: (ltnP j kept) => *; apply/eqP/eqP; lia.
    rewrite -[RHS]/(eval_gamma ani m info' (h i) (h j)) /bordered /h.
    case: (ltnP i kept) => i1; case: (ltnP j kept) => j1 //.
    by rewrite /eval_gamma /info' !nth_cat z1 !(leq_trans _ kl).
  move=> ->.
  have nzp : \prod_(j <- rem) - small_gamma ani (gi_a (gold j)) (gi_a0 (gold j)) != 0.
    rewrite prodf_seq_neq0; elim: rem sub => [//|x l IH] /= /andP [oi ol]; rewrite IH // andbT.
    have pi' : op_pos x \in poss info by rewrite -[op_pos x]/(gi_pos (gold x)) map_f.
    have := cur_sg (ga_io ga) oi; rewrite /small_gamma => <-.
    rewrite oppr_eq0 mulf_neq0 ?invr_eq0 ?(cur_nz st (ga_io ga)) //.
    by rewrite subr_eq0 (cur_df st (ga_io ga)).
  move: nzp; rewrite /gold /ginf /gi_a /gi_a0 /=.
  move: (\prod_(j <- rem) _) (\prod_(_ <- Kp) _) (\prod_(_ <- ins) _) (det_of _ _) (rdet _) (src_ratio_replace_rows_cols _ _ _ _ _ _ _).1 => a b c d e q nzp.
  by field.
eexists; first by reflexivity.
exists [seq sig sl i | i <- iota 0 (size info)]; rewrite eN; split=> //=.
- exact: sig_perm.
- rewrite /vresize take_size_cat // size_cat z1 size_map.
  have -> : (size info - (size info + size ins) = 0)%N by lia.
  by rewrite cats0 /info1 (map_comp (nth i0 info) (sig sl)).
- by move=> i j il jl; rewrite /mat1 swapsE !nth_sig.
Qed.

End Mixed.

End Flavor.
