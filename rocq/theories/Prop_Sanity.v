(* Property theorems: C87 (the checks of the debug build). *)
From mathcomp Require Import all_ssreflect ssralg ssrnum order ssrint rat matrix.
From Verif Require Import Outcome MatLib MatSpec FormulaProofs SubModel SubSpec SubMath SubRows SubFlavor SubConf SubStep SubFinal
  SubProofs Prop_Sub SanityModel.

Set Implicit Arguments.
Unset Strict Implicit.
Unset Printing Implicit Defensive.

Import Order.Theory GRing.Theory Num.Theory.
Local Open Scope ring_scope.

Lemma foldl_and (A : Type) (h : A -> outcome bool) (l : seq A) :
  foldl (fun a x => obind a (fun b => if b then h x else Ok false)) (Ok true) l = Ok true <->
  List.Forall (fun x => h x = Ok true) l.
Proof.
have bad l' : foldl (fun a x => obind a (fun b : bool => if b then h x else Ok false)) (Ok false) l' = Ok false.
  by elim: l'.
have no (o : outcome bool) l' : (forall b, o <> Ok b) ->
    foldl (fun a x => obind a (fun b : bool => if b then h x else Ok false)) o l' = o.
  by case: o => [b /(_ b)|||] //; elim: l'.
elim: l => [|x l IH] /=; first by split=> // _; constructor.
case e : (h x) => [[]|||].
- split=> [/IH H|H]; first by constructor.
  by apply/IH; inversion H.
- by rewrite bad; split=> // H; inversion H; move: H2; rewrite e.
- by rewrite no //; split=> // H; inversion H; move: H2; rewrite e.
- by rewrite no //; split=> // H; inversion H; move: H2; rewrite e.
- by rewrite no //; split=> // H; inversion H; move: H2; rewrite e.
Qed.

Lemma Forall_mem (A : eqType) (P : A -> Prop) (l : seq A) :
  List.Forall P l <-> forall x, x \in l -> P x.
Proof.
elim: l => [|x l IH]; first by split.
split=> [H y|H]; first by inversion H; rewrite inE => /orP[/eqP ->|yl] //; apply: (IH.1 H3).
constructor; first by apply: H; rewrite mem_head.
by apply: IH.2 => y yl; apply: H; rewrite inE yl orbT.
Qed.

Section Sane.
Variables (F : numFieldType) (Tm : eqType) (ani : F).
Variable G0 : sop Tm -> sop Tm -> F.
Variable U : seq (vdef F).
Variable x0 : sop Tm.
Variable nf : nat.
Hypothesis tok : sp_types_ok U ani nf.
Variable eps : F.
Hypothesis e0 : 0 < eps.
Implicit Types (s : sub F Tm).

Lemma my_equal_refl (x : F) : my_equal eps x x.
Proof. by rewrite /my_equal subrr normr0 mul0r. Qed.

Lemma scr_vrows fl (vs : seq (vertex Tm)) : all (fun v => ~~ v_non v) vs -> scr_rows U vs fl = vrows ani U fl vs.
Proof.
move=> /allP ni; rewrite /scr_rows /vrows; congr flatten; apply/eq_in_map => v vi.
rewrite /vrow1; apply/eq_in_map => r _; rewrite /vr /alp /alpha_of /v_state.
by rewrite (negbTE (ni _ vi)).
Qed.

Lemma gm_sane_ok (m : inva F Tm) (g : gmat F) : gam_ok ani x0 m g -> gm_sane ani x0 eps m g.
Proof.
case=> gn io gi; rewrite /gm_sane; case: eqP => // /eqP nz.
apply/and3P; split; [|by rewrite gn|].
  by apply/allP => x xi; rewrite /ia_row (io_a0 io xi).
have dn : det_of (size (gm_info g)) (eval_gamma ani m (gm_info g)) != 0.
  by have /inverse_ofP h := gi; have [] := mulmx1_unit h; rewrite unitmxE unitfE.
have fq := inverse_uniq (finv_inverse dn) gi.
rewrite /norm_square big1 ?mul0r // => i _; rewrite big1 // => j _.
by rewrite /fsub fq // subrr normr0 expr0n.
Qed.

Lemma flavor_sane_ok (m : inva F Tm) (l : seq (arow F Tm)) :
  ia_n m = size (ia_rows m) -> perm_eq (ia_rows m) l -> uniq [seq uidkey x | x <- l] ->
  flavor_sane x0 m l = Ok true.
Proof.
move=> en pe u; rewrite /flavor_sane /ia_sane en eqxx /= (perm_size pe) eqxx /=.
apply/foldl_and/Forall_mem => x xl; rewrite /row_sane.
have xr : x \in ia_rows m by rewrite (perm_mem pe).
have ur : uniq [seq uidkey x | x <- ia_rows m] by rewrite (perm_uniq (perm_map _ pe)).
have km : (ar_uid x, ar_rank x) \in [seq uidkey x | x <- ia_rows m] by apply/mapP; exists x.
rewrite (find_rowE km).
have -> : ia_row x0 m (index (ar_uid x, ar_rank x) [seq uidkey x | x <- ia_rows m]) = x.
  rewrite /ia_row -[(ar_uid x, ar_rank x)]/(uidkey x).
  have il : (index x (ia_rows m) < size (ia_rows m))%N by rewrite index_mem.
  have -> : uidkey x = nth (uidkey x) [seq uidkey x | x <- ia_rows m] (index x (ia_rows m)).
    by rewrite (nth_map x) // nth_index.
  by rewrite index_uniq ?size_map // nth_index.
by rewrite !eqxx.
Qed.

End Sane.

(* ------------------------------------------------------------------ C87 *)

(* Every object that a program can reach passes all checks of the debug build, and the check
   leaves the configuration, the signs and the matrices as they were. *)
Theorem C87_passes :
  forall (F : numFieldType) (Tm : eqType) (ani : F) (G0 : sop Tm -> sop Tm -> F) (U : seq (vdef F))
         (x0 : sop Tm) (nf : nat) (tm0 : Tm) (junk : fmat F) (eps : F) (s : sub F Tm),
    0 < eps -> sp_types_ok U ani nf -> reach ani G0 U x0 nf tm0 junk s ->
    exists2 s2, sub_sane ani G0 U x0 eps s = Ok (true, s2) &
      [/\ reach ani G0 U x0 nf tm0 junk s2, su_trying s2 = su_trying s, su_v s2 = su_v s,
          su_sign s2 = su_sign s /\ su_sdet s2 = su_sdet s &
      forall fl, (fl < nf)%N ->
        let m := nth (inva_new F Tm) (su_A s) fl in let m2 := nth (inva_new F Tm) (su_A s2) fl in
        [/\ ia_n m2 = ia_n m, ia_rows m2 = ia_rows m &
            forall i j, (i < ia_n m)%N -> (j < ia_n m)%N -> ia_mat m2 i j = ia_mat m i j]].
Proof.
move=> F Tm ani G0 U x0 nf tm0 junk eps s e0 tok re; have hi := reach_inv tok re.
rewrite /sub_sane.
have -> : all (fun fl => gm_sane ani x0 eps (nth (inva_new F Tm) (su_A s) fl) (nth (gmat_new F) (su_G s) fl))
            (iota 0 (size (su_A s))).
  apply/allP => fl; rewrite mem_iota add0n (i_sA hi) => /andP[_ fll].
  exact: (gm_sane_ok e0 (fv_ga (i_fl hi fll))).
case tr : (su_trying s); first by exists s.
have ntr : ~~ su_trying s by rewrite tr.
have -> : flavors_sane U x0 (su_A s) (su_v s) = Ok true.
  apply/foldl_and/Forall_mem => fl; rewrite mem_iota add0n (i_sA hi) => /andP[_ fll].
  have hf := i_fl hi fll; apply: flavor_sane_ok; first exact: (st_n (fv_st hf)).
    by rewrite (scr_vrows ani) ?(i_ready hi ntr) //; apply: (rd_perm hi ntr fll).
  by rewrite (scr_vrows ani) ?(i_ready hi ntr) //; apply: keys_uniq (i_uid hi).
have [s2 e [re2 tr2 ev es em]] := C58_recompute tok re ntr; rewrite /= e /=.
have ed : su_sdet s2 = su_sdet s by rewrite (i_sdet (reach_inv tok re2)) (i_sdet hi) ev.
by exists s2; [rewrite es ed !my_equal_refl | split=> //; rewrite (negbTE tr2)].
Qed.
Print Assumptions C87_passes.

(* Outside a session, an arbitrary object with distinct numbers of the vertices passes the
   check only if every part of every vertex has exactly one row, with the operators and the
   alpha of that part, and there are no other rows; and the check does not pass without
   recomputing: what it leaves behind has the recomputed matrices and signs. *)
Theorem C87_finds :
  forall (F : numFieldType) (Tm : eqType) (ani : F) (G0 : sop Tm -> sop Tm -> F) (U : seq (vdef F))
         (x0 : sop Tm) (eps : F) (s s2 : sub F Tm),
    ~~ su_trying s -> uniq [seq v_uid v | v <- su_v s] ->
    sub_sane ani G0 U x0 eps s = Ok (true, s2) ->
    recompute_matrix ani G0 U x0 s = Ok s2 /\
    forall fl, (fl < size (su_A s))%N ->
      let rows := ia_rows (nth (inva_new F Tm) (su_A s) fl) in
      [/\ ia_n (nth (inva_new F Tm) (su_A s) fl) = size rows,
          uniq [seq (ar_uid x, ar_rank x) | x <- rows],
          forall v r, v \in su_v s -> (r < vd_rank (sp_def U v))%N -> sp_flavor U v r = fl ->
            exists2 x, x \in rows &
              [/\ ar_uid x = v_uid v, ar_rank x = r,
                  ar_cre x = (fl, nth 0%N (vd_sites (sp_def U v)) (2 * r)%N, v_time v, - r%:Z),
                  ar_ann x = (fl, nth 0%N (vd_sites (sp_def U v)) (2 * r + 1)%N, v_time v, - r%:Z) &
                  ar_alpha x = vd_alpha (sp_def U v) (v_af v) r] &
          forall x, x \in rows -> exists v, [/\ v \in su_v s, ar_uid x = v_uid v,
            (ar_rank x < vd_rank (sp_def U v))%N & sp_flavor U v (ar_rank x) = fl]].
Proof.
move=> F Tm ani G0 U x0 eps s s2 tr u; rewrite /sub_sane.
case: ifP => // _; rewrite (negbTE tr).
case ef : (flavors_sane _ _ _ _) => [[]|||] //=.
case er : (recompute_matrix _ _ _ _ _) => [s3|||] //= [_ <-]; split=> // fl fll.
move/foldl_and/Forall_mem: ef => /(_ fl); rewrite mem_iota add0n fll => /(_ isT).
set m := nth _ _ _; set l := scr_rows _ _ _; rewrite /flavor_sane /ia_sane.
case: eqP => //= en; case: eqP => //= es /foldl_and/Forall_mem hl.
pose ni (v : vertex Tm) : vertex Tm := (v.1.1, false, v.2).
have el : l = vrows ani U fl [seq ni v | v <- su_v s].
  rewrite -(scr_vrows ani) ?all_map; last by apply/allP.
  by rewrite /l /scr_rows -map_comp; congr flatten; apply/eq_in_map => -[[[[t a] tm] no] ud] _.
have ul : uniq [seq uidkey x | x <- l].
  by rewrite el; apply: keys_uniq; rewrite -map_comp; have -> : [seq (@v_uid Tm \o ni) v | v <- su_v s] = [seq v_uid v | v <- su_v s] by apply: eq_map => -[[[[? ?] ?] ?] ?].
have fnd x : x \in l -> exists2 y, y \in ia_rows m &
    [/\ uidkey y = uidkey x, ar_cre y = ar_cre x, ar_ann y = ar_ann x & ar_alpha y = ar_alpha x].
  move/hl; rewrite /row_sane /find_row; set i := find _ _; case: ifP => // il [].
  case/and3P=> /eqP h1 /eqP h2 /eqP h3; exists (ia_row x0 m i); first by rewrite mem_nth.
  split=> //; have := nth_find (row0 F x0) (a := fun r => (ar_uid r == ar_uid x) && (ar_rank r == ar_rank x)) (s := ia_rows m).
  by rewrite has_find -/i il => /(_ isT) /andP[/eqP a /eqP b]; rewrite /uidkey -a -b.
have sub : {subset [seq uidkey x | x <- l] <= [seq uidkey x | x <- ia_rows m]}.
  by move=> k /mapP[x xl ->]; have [y yr [<- _ _ _]] := fnd _ xl; apply: map_f.
have sz : (size [seq uidkey x | x <- ia_rows m] <= size [seq uidkey x | x <- l])%N by rewrite !size_map -es.
have ur2 := leq_size_uniq ul sub sz; have [_ eqm] := uniq_min_size ul sub sz.
split.
- exact: en.
- exact: ur2.
- move=> v r vi rl rf.
  have xl : vr ani U (ni v) r \in l.
    rewrite el; apply/vrowsP; exists (ni v), r.
    by case: v vi rl rf => [[[[t a] tm] no] ud] vi rl rf; split=> //; apply/mapP; exists (t, a, tm, no, ud).
  have [y yr [h1 h2 h3 h4]] := fnd _ xl; exists y => //.
  move: h1 h2 h3 h4 rf; case: v {vi rl xl} => [[[[t a] tm] no] ud] /=.
  by rewrite key_vr => -[-> ->] -> -> -> <-.
move=> x xr; have : uidkey x \in [seq uidkey x | x <- l] by rewrite eqm map_f.
case/mapP => y; rewrite el => /vrowsP[w [r [/mapP[v vi ->] rl rf ->]]]; rewrite key_vr => -[h1 h2].
exists v; move: h1 h2 rl rf; case: v vi => [[[[t a] tm] no] ud] vi /= -> ->.
by [].
Qed.
Print Assumptions C87_finds.

(* In and outside a session: if an arbitrary object passes the check with every tolerance, the
   auxiliary matrix of every flavor is the inverse of the matrix it stands for, and its
   records of the alphas at the start of the session agree with the rows. *)
Theorem C87_gamma :
  forall (F : numFieldType) (Tm : eqType) (ani : F) (G0 : sop Tm -> sop Tm -> F) (U : seq (vdef F))
         (x0 : sop Tm) (s : sub F Tm) (fl : nat),
    (forall eps, 0 < eps -> exists s2, sub_sane ani G0 U x0 eps s = Ok (true, s2)) ->
    (fl < size (su_A s))%N ->
    let m := nth (inva_new F Tm) (su_A s) fl in let g := nth (gmat_new F) (su_G s) fl in
    let N := size (gm_info g) in
    let pos i := gi_pos (nth (info0 F) (gm_info g) i) in
    let f (a : F) := if a == ani then 1 else a / (a - 1) in
    let fn i := f (gi_a (nth (info0 F) (gm_info g) i)) in
    let f0 i := f (gi_a0 (nth (info0 F) (gm_info g) i)) in
    let Gam : fmat F := fun i j => ia_tG m (pos i) (pos j) -
      (if i == j then (1 + (fn i - f0 i) / f0 i) / ((fn i - f0 i) / f0 i) else 0) in
    (0 < N)%N -> det_of N Gam != 0 ->
    [/\ gm_n g = N, inverse_of N Gam (gm_mat g) &
        forall i, (i < N)%N -> gi_a0 (nth (info0 F) (gm_info g) i) = ar_alpha (ia_row x0 m (pos i))].
Proof.
move=> F Tm ani G0 U x0 s fl H fll m g N pos f fn f0 Gam N0 dn.
have sane eps : 0 < eps -> gm_sane ani x0 eps m g.
  move=> e0; have [s2] := H eps e0; rewrite /sub_sane; case: ifP => // /negbFE /allP /(_ fl) + _.
  by rewrite mem_iota add0n fll; apply.
have := sane 1 ltr01; rewrite /gm_sane -/N; case: eqP => [z|_]; first by rewrite z in N0.
case/and3P => /allP ha /eqP hn _; split=> //; last first.
  by move=> i iN; apply/eqP; apply: ha; rewrite mem_nth.
have eG : feq N N (eval_gamma ani m (gm_info g)) Gam.
  by move=> i j iN jN; rewrite /eval_gamma /Gam /small_gamma /gamma_func /eval_f -/(pos i) -/(pos j); case: eqP => // _; rewrite subr0.
have dn' : det_of N (eval_gamma ani m (gm_info g)) != 0 by have e : det_of N (eval_gamma ani m (gm_info g)) = det_of N Gam := fdet_ext eG; rewrite e.
have hf := finv_inverse dn'.
apply: inverse_of_ext eG _ hf => i j iN jN.
set a := finv _ _; apply/eqP; rewrite -subr_eq0 -normr_eq0; apply/negPn/negP => nz.
have pos0 : 0 < `|a i j - gm_mat g i j| ^+ 2 by rewrite exprn_gt0 // lt_neqAle eq_sym nz normr_ge0.
have NN : 0 < (N * N)%:R :> F by rewrite ltr0n muln_gt0 N0.
have := sane (`|a i j - gm_mat g i j| ^+ 2 / (N * N)%:R) (divr_gt0 pos0 NN).
rewrite /gm_sane -/N; case: eqP => [z|_]; first by rewrite z in N0.
case/and3P=> _ _; rewrite ltr_pdivr_mulr // divfK ?gt_eqF // => lt.
suff le : `|a i j - gm_mat g i j| ^+ 2 <= norm_square N (fsub a (gm_mat g)) by have := lt_le_trans lt le; rewrite ltxx.
rewrite /norm_square (bigD1 (Ordinal iN)) //= (bigD1 (Ordinal jN)) //= -addrA ler_addl.
by rewrite addr_ge0 // sumr_ge0 // => k _; rewrite ?sumr_ge0 // => *; rewrite exprn_ge0.
Qed.
Print Assumptions C87_gamma.

(* The stored inverse of the matrix A of a flavor with rows has no influence on the check,
   whatever it is: it is recomputed, a deviation is printed only. *)
Definition with_mat (F : numFieldType) (Tm : eqType) (c : fmat F) (s : sub F Tm) : sub F Tm :=
  Sub (su_trying s) [seq InvA (ia_n m) c (ia_tG m) (ia_rows m) | m <- su_A s] (su_G s) (su_v s) (su_v0 s)
      (su_sdet s) (su_sign s) (su_det_rat s) (su_sign_rat s) (su_rem s) (su_ins s) (su_rep s) (su_id s).

Theorem C87_inverse_ignored :
  forall (F : numFieldType) (Tm : eqType) (ani : F) (G0 : sop Tm -> sop Tm -> F) (U : seq (vdef F))
         (x0 : sop Tm) (eps : F) (s s2 : sub F Tm) (c : fmat F),
    ~~ su_trying s -> all (fun m => 0 < size (ia_rows m))%N (su_A s) ->
    sub_sane ani G0 U x0 eps s = Ok (true, s2) ->
    sub_sane ani G0 U x0 eps (with_mat c s) = Ok (true, s2).
Proof.
move=> F Tm ani G0 U x0 eps s s2 c tr ne; rewrite /sub_sane /= size_map (negbTE tr).
set A' := [seq _ | m <- su_A s].
have eA fl : (fl < size (su_A s))%N -> nth (inva_new F Tm) A' fl =
    let m := nth (inva_new F Tm) (su_A s) fl in InvA (ia_n m) c (ia_tG m) (ia_rows m).
  by move=> fll; rewrite (nth_map (inva_new F Tm)).
have -> : all (fun fl => gm_sane ani x0 eps (nth (inva_new F Tm) A' fl) (nth (gmat_new F) (su_G s) fl))
              (iota 0 (size (su_A s))) =
          all (fun fl => gm_sane ani x0 eps (nth (inva_new F Tm) (su_A s) fl) (nth (gmat_new F) (su_G s) fl))
              (iota 0 (size (su_A s))).
  by apply: eq_in_all => fl; rewrite mem_iota add0n => /andP[_ fll]; rewrite eA.
case: ifP => // _.
have -> : recompute_matrix ani G0 U x0 (with_mat c s) = recompute_matrix ani G0 U x0 s.
  rewrite /recompute_matrix /= (negbTE tr) /recompute_flavors.
  have -> : [seq ia_recompute ani G0 x0 m | m <- A'] = [seq ia_recompute ani G0 x0 m | m <- su_A s].
    rewrite /A'; elim: (su_A s) ne => //= m l IH /andP[h /IH ->]; congr cons.
    by rewrite /ia_recompute /=; case: (size _) h.
  by [].
case ef : (flavors_sane U x0 (su_A s) (su_v s)) => [[]|||] //=.
suff -> : flavors_sane U x0 A' (su_v s) = Ok true by [].
move/foldl_and/Forall_mem: ef => h; apply/foldl_and/Forall_mem => fl; rewrite size_map => fi.
have := h fl fi; rewrite eA //; by move: fi; rewrite mem_iota add0n => /andP[].
Qed.
Print Assumptions C87_inverse_ignored.

(* Example: one vertex between sessions, and two vertices inside a session *)
Lemma one_row (s : sub [numFieldType of rat] [eqType of nat]) : reachX s -> ~~ su_trying s -> size (su_v s) = 1%N -> v_type (nth (vX 0 0) (su_v s) 0) = 0%N ->
  forall fl, (fl < 2)%N -> size (ia_rows (nth (inva_new [numFieldType of rat] [eqType of nat]) (su_A s) fl)) = 1%N.
Proof.
move=> re tr sz ty fl fll; have hi := reach_inv tokX re.
rewrite (perm_size (rd_perm hi tr fll)); case: (su_v s) sz ty => [|[[[[t a] tm] no] u] [|]] //= _; rewrite {1}/v_type /= => ->.
by case: fl fll => [|[|]].
Qed.

Lemma oneX : exists s, [/\ reachX s, ~~ su_trying s, size (su_v s) = 1%N & v_type (nth (vX 0 0) (su_v s) 0) = 0%N].
Proof.
have [|s e [re tr v sg]] := @C58_construct _ _ aniX GX UX xX 2 0%N jX 0 [:: vX 1 5] tokX isT isT.
  exact: weightX_ne0.
have sz : size (su_v s) = 1%N by have := congr1 size v; rewrite !size_map.
exists s; split; [exact re|exact tr|exact sz|].
by have := congr1 (fun l => nth 0%N [seq x.1.1.1 | x <- l] 0) v; rewrite -!map_comp (nth_map (vX 0 0)) ?sz.
Qed.

Example C87_case : exists s, [/\ reachX s, ~~ su_trying s, size (su_v s) = 1%N &
  forall eps : [numFieldType of rat], 0 < eps -> exists s2, sub_sane aniX GX UX xX eps s = Ok (true, s2)].
Proof.
have [s [re tr sz ty]] := oneX; exists s; split=> // eps e0.
by have [s2 e _] := C87_passes e0 tokX re; exists s2.
Qed.
(* inside a session: two vertices, the first one flipped, so that each flavor has one row in
   its auxiliary matrix *)
Example C87_session_case : exists s, [/\ reachX s, su_trying s, su_v s = vsX1,
  forall fl, (fl < 2)%N -> size (gm_info (nth (gmat_new [numFieldType of rat]) (su_G s) fl)) = 1%N &
  forall eps : [numFieldType of rat], 0 < eps -> sub_sane aniX GX UX xX eps s = Ok (true, s)].
Proof.
have [s [re tr v v0]] := sessionX; exists s; split=> // [fl fll|eps e0]; last first.
  have [s2 e _] := C87_passes e0 tokX re.
  by rewrite e; move: e; rewrite /sub_sane tr; case: ifP => // _ [->].
have hi := reach_inv tokX re; have hf := i_fl hi fll.
have p0 := fv_p0 hf; have p1 := fv_p hf; rewrite /ini tr v0 in p0; rewrite v in p1.
have -> : gm_info (nth (gmat_new _) (su_G s) fl) = inff s fl by [].
rewrite -(count_info (ga_io (fv_ga hf))); last by rewrite (perm_all _ p0); case: fl {hf p0 p1} fll => [|[|]] // _; vm_compute.
by move/permP: p1 => ->; case: fl {hf p0} fll => [|[|]] // _; vm_compute.
Qed.

(* The check passes although the stored inverse is not the inverse of any matrix. *)
Theorem C87_inverse_refuted : exists (s : sub [numFieldType of rat] [eqType of nat]),
  (forall eps : [numFieldType of rat], 0 < eps -> exists s2, sub_sane aniX GX UX xX eps s = Ok (true, s2)) /\
  forall fl, (fl < 2)%N -> let m := nth (inva_new _ _) (su_A s) fl in
    ia_n m = 1%N /\ forall A : fmat [numFieldType of rat], ~ inverse_of (ia_n m) A (ia_mat m).
Proof.
have [s [re tr sz ty]] := oneX; have hi := reach_inv tokX re; have o := one_row re tr sz ty.
exists (with_mat (fun _ _ => 0) s); split.
  move=> eps e0; have [s2 e _] := C87_passes e0 tokX re; exists s2.
  apply: C87_inverse_ignored => //; apply/(all_nthP (inva_new _ _)) => fl; rewrite (i_sA hi) => fll.
  by rewrite (o fl fll).
move=> fl fll m.
have n1 : ia_n m = 1%N.
  by rewrite /m (nth_map (inva_new _ _)) ?(i_sA hi) //= (st_n (fv_st (i_fl hi fll))) (o fl fll).
split=> // A; rewrite n1 => /(_ 0%N 0%N isT isT).
by rewrite big_ord_recl big_ord0 addr0 /m (nth_map (inva_new _ _)) ?(i_sA hi) //= mulr0.
Qed.
Print Assumptions C87_inverse_refuted.
