(* Property theorems: C73 (one measurement of a walker), C74 (measurements depend on the
   vertices alone). *)
From mathcomp Require Import all_ssreflect order ssralg ssrnum ssrint rat matrix algC zify.
From mathcomp.algebra_tactics Require Import ring.
From Verif Require Import Outcome MatLib MatSpec BlockLib FormulaProofs SubModel SubSpec SubProofs Prop_Sub.
From Verif Require Import GreenModel BinModel Prop_Bin LegendreModel DensModel DensSpec DensProofs Prop_Dens SlModel Prop_Sl OrderModel Prop_Order.
From Verif Require Import MeasModel MeasSpec.

Set Implicit Arguments.
Unset Strict Implicit.
Unset Printing Implicit Defensive.

Local Open Scope ring_scope.
Import Order.TTheory GRing.Theory Num.Theory.

(* ---- determinants ---- *)

Section Cramer.
Variable C : numClosedFieldType.

Lemma cramer n (N M : nat -> nat -> C) (c : nat -> C) q : inverse_of n N M -> (q < n)%N ->
  det_of n (with_column q N c) / det_of n N = \sum_(p < n) M q p * c p.
Proof.
move=> h ql; have u := inverse_of_unit h.
have /inverse_ofP hm := h.
have unit : mxof n n N \in unitmx by case: (mulmx1_unit hm).
have eM : mxof n n M = (\det (mxof n n N))^-1 *: \adj (mxof n n N).
  have : mxof n n M = invmx (mxof n n N) by rewrite -[LHS](mulKmx unit) hm mulmx1.
  by rewrite /invmx unit.
rewrite {1}/det_of (expand_det_col _ (Ordinal ql)) mulr_suml; apply: eq_bigr => p _.
have -> : M q p = (mxof n n M) (Ordinal ql) p by rewrite mxE.
rewrite eM !mxE /with_column eqxx -mulrA mulrC -[det_of n N]/(\det (mxof n n N)); congr (_ * _).
rewrite mulrC; congr (_ * _); rewrite /cofactor; congr (_ * \det _).
apply/matrixP => a b; rewrite !mxE.
have -> : (lift (Ordinal ql) b == q :> nat) = false.
  by apply/negbTE; rewrite eq_sym; exact: (neq_lift (Ordinal ql) b).
by [].
Qed.

End Cramer.

Section Perm.
Variables (C : numClosedFieldType) (G0 : sop rat_eqType -> sop rat_eqType -> C) (x0 : sop rat_eqType).
Local Notation term := (sop rat_eqType * sop rat_eqType * C)%type.
Local Notation t0 := (@term0 C rat_eqType x0).

(* a rearranged list of operators *)
Lemma ops_perm (ops ops' : seq term) : perm_eq ops' ops ->
  exists2 Is, perm_eq Is (iota 0 (size ops)) & ops' = [seq nth t0 ops i | i <- Is].
Proof. by move/(perm_iotaP t0). Qed.

Variables (ops : seq term) (Is : seq nat).
Hypothesis pI : perm_eq Is (iota 0 (size ops)).
Let ops' := [seq nth t0 ops i | i <- Is].
Let n := size ops.

Lemma sI : size Is = n. Proof. by rewrite (perm_size pI) size_iota. Qed.
Lemma sops' : size ops' = n. Proof. by rewrite size_map sI. Qed.
Lemma nth_ops' i : (i < n)%N -> nth t0 ops' i = nth t0 ops (nth 0%N Is i).
Proof. by move=> il; rewrite (nth_map 0%N) ?sI. Qed.

Lemma mat_perm : feq n n (sp_mat G0 x0 ops') (select (sp_mat G0 x0 ops) Is Is).
Proof.
move=> i j il jl; rewrite /select /sp_mat !nth_ops' // nth_uniq ?sI //.
by rewrite (perm_uniq pI) iota_uniq.
Qed.

Lemma det_perm : det_of n (sp_mat G0 x0 ops') = det_of n (sp_mat G0 x0 ops).
Proof. by rewrite !det_ofE (fdet_ext mat_perm) -det_ofE (fdet_select _ pI pI) fsign_sqr mul1r. Qed.

Lemma inv_perm M : inverse_of n (sp_mat G0 x0 ops) M -> inverse_of n (sp_mat G0 x0 ops') (select M Is Is).
Proof.
move=> h; have := inverse_of_select pI pI h; apply: inverse_of_ext; last by [].
exact: feq_sym mat_perm.
Qed.

Variables (M : nat -> nat -> C) (g : rat -> nat -> nat -> C).
Hypothesis iM : inverse_of n (sp_mat G0 x0 ops) M.
Local Notation annih l := [seq place t.1.1 | t <- l].
Local Notation creat l := [seq place t.1.2 | t <- l].

Lemma pair_addedE mz tau i j :
  sp_pair_added g mz tau (conf_of G0 x0 ops) i j = wickm g mz tau (FlavorData (annih ops) (creat ops) M) i j.
Proof.
rewrite /sp_pair_added /= /with_extra /= !size_map (det_bordered _ _ _ _ iM) det_of1 /wickm /=.
by rewrite size_map.
Qed.

Lemma movedE s b q : (q < n)%N -> sp_moved g (conf_of G0 x0 ops) s b q =
  \sum_(p < n) M q p * g ((nth (0%N, 0) (annih ops) p).2 + s) (nth (0%N, 0) (annih ops) p).1 b.
Proof. by move=> ql; rewrite /sp_moved /= size_map (cramer _ iM). Qed.

Lemma annih' i : (i < n)%N -> nth (0%N, 0) (annih ops') i = nth (0%N, 0) (annih ops) (nth 0%N Is i).
Proof.
move=> il; have lt := nth_perm_lt pI il.
by rewrite !(nth_map t0) ?sops' // nth_ops'.
Qed.
Lemma creat' i : (i < n)%N -> nth (0%N, 0) (creat ops') i = nth (0%N, 0) (creat ops) (nth 0%N Is i).
Proof.
move=> il; have lt := nth_perm_lt pI il.
by rewrite !(nth_map t0) ?sops' // nth_ops'.
Qed.

End Perm.

Section Perm2.
Variables (C : numClosedFieldType) (G0 : sop rat_eqType -> sop rat_eqType -> C) (x0 : sop rat_eqType).
Local Notation term := (sop rat_eqType * sop rat_eqType * C)%type.
Variables (ops ops' : seq term) (M : nat -> nat -> C) (g : rat -> nat -> nat -> C).
Hypothesis pe : perm_eq ops' ops.
Hypothesis iM : inverse_of (size ops) (sp_mat G0 x0 ops) M.

Lemma pair_added_perm mz tau i j :
  sp_pair_added g mz tau (conf_of G0 x0 ops') i j = sp_pair_added g mz tau (conf_of G0 x0 ops) i j.
Proof.
have [Is pI e] := ops_perm x0 pe; have iM' := inv_perm pI iM.
have so := sops' x0 pI; rewrite -e in so.
have h := @pair_addedE C G0 x0 ops' (select M Is Is) g.
rewrite so e in h; rewrite e (h iM') (pair_addedE g iM) /wickm /= !size_map (sI pI); congr (_ - _).
set n := size ops.
pose f p q := M p q * g ((nth (0%N, 0) [seq place t.1.1 | t <- ops] q).2 - tau) (nth (0%N, 0) [seq place t.1.1 | t <- ops] q).1 i.
pose k p := g (tau - (nth (0%N, 0) [seq place t.1.2 | t <- ops] p).2) j (nth (0%N, 0) [seq place t.1.2 | t <- ops] p).1 *
  \sum_(q < n) f p q.
transitivity (\sum_(p < n) k (nth 0%N Is p)); last by rewrite (sum_nth_perm k pI).
apply: eq_bigr => p _; rewrite (creat' x0 pI) //; congr (_ * _).
rewrite -(sum_nth_perm (f _) pI); apply: eq_bigr => q _.
by rewrite /f /select (annih' x0 pI).
Qed.

Lemma stau_perm beta n_bin sign shifts s1 s2 k :
  sp_stau g beta n_bin sign shifts (conf_of G0 x0 ops') s1 s2 k = sp_stau g beta n_bin sign shifts (conf_of G0 x0 ops) s1 s2 k.
Proof.
have [Is pI e] := ops_perm x0 pe; have iM' := inv_perm pI iM.
have so := sops' x0 pI; rewrite -e in so.
have h := @movedE C G0 x0 ops' (select M Is Is) g.
rewrite /sp_stau; apply: eq_bigr => s _; rewrite /= !size_map so !big_mkord.
set n := size ops.
pose f q := if ((nth (0%N, 0) [seq place t.1.2 | t <- ops] q).1 == s1) && in_bin beta n_bin k ((nth (0%N, 0) [seq place t.1.2 | t <- ops] q).2 + s)
  then (-1) ^+ odd_period beta ((nth (0%N, 0) [seq place t.1.2 | t <- ops] q).2 + s) *
       (sign / ratr (beta / n_bin%:R * (size shifts)%:R)) * sp_moved g (conf_of G0 x0 ops) s s2 q else 0.
transitivity (\sum_(q < n) f (nth 0%N Is q)); last by rewrite (sum_nth_perm f pI).
apply: eq_bigr => q _; have lt := nth_perm_lt pI (ltn_ord q).
rewrite /f e (creat' x0 pI) //; case: ifP => // _; congr (_ * _).
rewrite so e in h; rewrite (h iM') // (movedE g iM) //.
pose v p := M (nth 0%N Is q) p * g ((nth (0%N, 0) [seq place t.1.1 | t <- ops] p).2 + s) (nth (0%N, 0) [seq place t.1.1 | t <- ops] p).1 s2.
rewrite -(sum_nth_perm v pI); apply: eq_bigr => p _.
by rewrite /v /select (annih' x0 pI).
Qed.

End Perm2.

(* ---- the vertices of a walker ---- *)

Section Walker.
Variables (C : numClosedFieldType) (ani : C) (G0 : sop rat_eqType -> sop rat_eqType -> C) (U : seq (vdef C)).
Variables (x0 : sop rat_eqType) (nf n_site : nat) (beta : rat).

(* all sites of the interaction exist, all times lie in the period *)
Definition sites_ok : bool := all (fun d : vdef C => all (fun x => x < n_site)%N (vd_sites d)) U.
Definition times_ok (vs : seq (vertex rat_eqType)) : bool := all (fun v => 0 <= v_time v < beta) vs.

Lemma sp_ops_ok (vs : seq (vertex rat_eqType)) z : sp_types_ok U ani nf -> sites_ok ->
  all (fun v => v_type v < size U)%N vs -> times_ok vs ->
  all (fun t => op_ok beta n_site (place t.1.2)) (sp_ops U z vs).
Proof.
move=> tok so; elim: vs => [|v vs IH] //= /andP [vt vts] /andP [tv tvs].
rewrite /sp_ops /=; case: ifP => _; last exact: IH.
rewrite /= all_cat IH // andbT all_map; apply/allP => r; rewrite mem_filter mem_iota /= => /andP [_ rl].
rewrite /op_ok /place /= tv andbT.
have := all_nthP (vdef0 C) tok _ vt; rewrite /sp_type_ok => /and5P [_ _ /eqP ss _ _].
apply: (allP (all_nthP (vdef0 C) so _ vt)); rewrite mem_nth // ss.
by move: rl; rewrite /sp_def; clear; lia.
Qed.

(* the operators do not depend on the numbers of the vertices, nor on their order *)
Definition unnumbered (v : vertex rat_eqType) : vertex rat_eqType := (v.1, 0%N).

Lemma ops_unnumbered z vs : sp_ops U z vs = sp_ops U z (map unnumbered vs).
Proof. by rewrite /sp_ops filter_map -map_comp. Qed.

Lemma ops_same z (vs ws : seq (vertex rat_eqType)) : perm_eq [seq v.1 | v <- vs] [seq v.1 | v <- ws] ->
  perm_eq (sp_ops U z vs) (sp_ops U z ws).
Proof.
move=> h; rewrite ops_unnumbered [sp_ops U z ws]ops_unnumbered.
have pe : perm_eq (map unnumbered vs) (map unnumbered ws).
  have e (l : seq (vertex rat_eqType)) : map unnumbered l = [seq (x, 0%N) | x <- [seq v.1 | v <- l]] by rewrite -map_comp.
  by rewrite !e; apply: perm_map.
by rewrite /sp_ops; apply/perm_flatten/perm_map/perm_filter.
Qed.

Lemma weight_same (vs ws : seq (vertex rat_eqType)) : perm_eq [seq v.1 | v <- vs] [seq v.1 | v <- ws] ->
  weight G0 U x0 nf vs = weight G0 U x0 nf ws.
Proof.
move=> h; rewrite /weight; congr (_ * _).
  apply: eq_bigr => fl _; have [Is pI ->] := ops_perm x0 (ops_same fl h).
  by rewrite sops' ?det_perm.
rewrite -(big_map (fun v : vertex rat_eqType => v.1) (fun x => ~~ x.2) (fun x => - vd_U (nth (vdef0 C) U x.1.1.1))).
by rewrite (perm_big _ h) big_map.
Qed.

Lemma of_type_same t (vs ws : seq (vertex rat_eqType)) : perm_eq [seq v.1 | v <- vs] [seq v.1 | v <- ws] ->
  of_type t vs = @of_type rat_eqType t ws.
Proof.
move=> h; have e (l : seq (vertex rat_eqType)) : of_type t l = count (fun x : nat * nat * rat * bool => x.1.1.1 == t) [seq v.1 | v <- l].
  by rewrite /of_type count_map; apply: eq_count.
by rewrite !e; move/permP: h; apply.
Qed.
End Walker.

(* the matrices a walker is measured with, in terms of its vertices *)
Lemma walker_flavors (C : numClosedFieldType) (cplx : bool) (ani : C) (G0 : sop rat_eqType -> sop rat_eqType -> C) (U : seq (vdef C))
    (x0 : sop rat_eqType) (nf : nat) (tm0 : rat_eqType) (junk : fmat C) (s : sub C rat_eqType)
    (g0 : rat -> nat -> nat -> nat -> C) (beta : rat) (n_site n_bin : nat) (shifts : seq rat) (tau : rat)
    (fls := [seq measured_flavor ani x0 s z | z <- iota 0 nf]) (w := weight G0 U x0 nf (su_v s)) (c := conf_at G0 U x0 (su_v s)) :
  sp_types_ok U ani nf -> sites_ok U n_site -> reach ani G0 U x0 nf tm0 junk s -> ~~ su_trying s -> times_ok beta (su_v s) ->
  [/\ measured_flavors ani x0 nf s = Ok fls, size fls = nf, all (fun d => all (op_ok beta n_site) (fd_creat d)) fls,
      (forall z a b, (z < nf)%N -> dval cplx g0 beta tau z (nth (FlavorData [::] [::] (fun _ _ => 0 : C)) fls z) a b =
         'Re (sp_pair_added (fun t a b => castM cplx (g0 t z a b)) (minus_zero beta) tau (c z) a b)) &
      forall z s1 s2 k, (z < nf)%N -> (s2 < n_site)%N ->
        stau_of (fun t z a b => castM cplx (g0 t z a b)) beta n_site n_bin (su_sign s, (shifts, fls)) z s1 s2 k =
        sp_stau (fun t a b => castM cplx (g0 t z a b)) beta n_bin (w / `|w|) shifts (c z) s1 s2 k].
Proof.
move=> tok so re tr ti.
have hi := reach_inv tok re; have [_ sg] := C57_running_sign tok re; rewrite -/w in sg.
have [sM hM] := C29_compute_M tok re tr.
have sA : size (su_A s) = nf by exact: (i_sA hi).
have ty : all (fun v => v_type v < size U)%N (su_v s) by apply: sub_all (i_vo hi) => v /andP [].
have sfl : size fls = nf by rewrite size_map size_iota.
have nfl z : (z < nf)%N -> nth (FlavorData [::] [::] (fun _ _ => 0 : C)) fls z = measured_flavor ani x0 s z.
  by move=> zl; rewrite (nth_map 0%N) ?size_iota // nth_iota.
pose Mz z := (nth (0%N, fun _ _ => 0) (compute_M ani x0 s) z).2.
have mfE z : measured_flavor ani x0 s z =
    FlavorData [seq place t.1.1 | t <- row_ops s z] [seq place t.1.2 | t <- row_ops s z] (Mz z).
  by rewrite /measured_flavor /row_ops -!map_comp.
have inv z : (z < nf)%N -> inverse_of (size (row_ops s z)) (sp_mat G0 x0 (row_ops s z)) (Mz z).
  by move=> zl; have [_ e] := hM z zl; rewrite e.
have pe z : (z < nf)%N -> perm_eq (row_ops s z) (sp_ops U z (su_v s)) by move=> zl; have [] := hM z zl.
have pe' z : (z < nf)%N -> perm_eq (sp_ops U z (su_v s)) (row_ops s z) by move=> zl; rewrite perm_sym pe.
have creat_ok : all (fun d => all (op_ok beta n_site) (fd_creat d)) fls.
  rewrite all_map; apply/allP => z; rewrite mem_iota add0n => /andP [_ zl].
  change (all (op_ok beta n_site) (fd_creat (measured_flavor ani x0 s z))); rewrite mfE /= all_map.
  by rewrite (perm_all _ (pe z zl)); apply: (sp_ops_ok z tok so ty ti).
have stE z s1 s2 k : (z < nf)%N -> (s2 < n_site)%N ->
    stau_of (fun t z a b => castM cplx (g0 t z a b)) beta n_site n_bin (su_sign s, (shifts, fls)) z s1 s2 k =
    sp_stau (fun t a b => castM cplx (g0 t z a b)) beta n_bin (w / `|w|) shifts (c z) s1 s2 k.
  move=> zl s2l; rewrite /c /conf_at (stau_perm _ (pe' z zl) (inv z zl)) /stau_of /over_ops /sp_stau /=.
  apply: eq_bigr => t _; rewrite nfl // mfE /= !size_map !big_mkord; apply: eq_bigr => q _.
  rewrite /contribution /= size_map s2l /= sg; case: ifP => // _; congr (_ * _).
  by rewrite big_mkord (movedE _ (inv z zl)); last by rewrite size_map ltn_ord.
have dE z a b : (z < nf)%N -> dval cplx g0 beta tau z (nth (FlavorData [::] [::] (fun _ _ => 0 : C)) fls z) a b =
    'Re (sp_pair_added (fun t a b => castM cplx (g0 t z a b)) (minus_zero beta) tau (c z) a b).
  move=> zl; rewrite nfl // dvalE mfE /c /conf_at (pair_added_perm _ (pe' z zl) (inv z zl)).
  by rewrite (pair_addedE _ (inv z zl)).
split=> //; first by rewrite /measured_flavors sA leqnn.
Qed.

(* ------------------------------------------------------------------ C73 *)

(* One measurement of a walker, however it was reached, succeeds, and what it hands to the
   accumulators is a function of the vertices: the sign of their weight, the quotients of
   determinants with an operator moved (self-energy function) or added (densities and
   correlations), and their numbers. *)
Theorem C73_measurement :
  forall (C : numClosedFieldType) (cplx : bool) (ani : C) (G0 : sop rat_eqType -> sop rat_eqType -> C) (U : seq (vdef C))
         (x0 : sop rat_eqType) (nf : nat) (tm0 : rat_eqType) (junk : fmat C) (s : sub C rat_eqType)
         (g0 : rat -> nat -> nat -> nat -> C) (beta : rat) (n_site n_bin : nat) (shifts : seq rat) (tau : rat),
    sp_types_ok U ani nf -> sites_ok U n_site -> reach ani G0 U x0 nf tm0 junk s -> ~~ su_trying s ->
    0 < beta -> (0 < n_bin)%N -> is_int32 n_bin -> times_ok beta (su_v s) -> all (fun t => 0 <= t < beta) shifts ->
    let w := weight G0 U x0 nf (su_v s) in
    let c := conf_at G0 U x0 (su_v s) in
    let g z t a b := castM cplx (g0 t z a b) in
    let mz := sp_minus_zero beta in
    exists2 o, measure_observables cplx ani U x0 g0 beta n_site n_bin nf shifts tau s = Ok o &
    [/\ ss_sign (ob_stau o) = 'Re (w / `|w|) /\ sm_sign (ob_dens o) = 'Re (w / `|w|),
        (forall z s1 s2, (z < nf)%N -> (s2 < n_site)%N ->
           ss_real (ob_stau o) z s1 s2 = [seq 'Re (sp_stau (g z) beta n_bin (w / `|w|) shifts (c z) s1 s2 k) | k <- iota 0 n_bin] /\
           ss_imag (ob_stau o) z s1 s2 = [seq 'Im (sp_stau (g z) beta n_bin (w / `|w|) shifts (c z) s1 s2 k) | k <- iota 0 n_bin]),
        size (sm_dens (ob_dens o)) = nf /\ (forall z, (z < nf)%N -> nth 0 (sm_dens (ob_dens o)) z =
           'Re (w / `|w|) * ((\sum_(a < n_site) 'Re (density_product (g z) mz tau (c z) [:: val a])) / n_site%:R)),
        (size (sm_real (ob_dens o)) = nf * n_site * nf * n_site /\ size (sm_imag (ob_dens o)) = nf * n_site * nf * n_site)%N /\
        (forall f1 i f2 j, (f1 < nf)%N -> (i < n_site)%N -> (f2 < nf)%N -> (j < n_site)%N ->
           let k := (((f1 * n_site + i) * nf + f2) * n_site + j)%N in
           nth 0 (sm_real (ob_dens o)) k = 'Re (w / `|w|) * sp_nij g mz tau c f1 i f2 j /\
           nth 0 (sm_imag (ob_dens o)) k = 0) &
        [/\ size (ob_order o) = nf, forall z, (z < nf)%N -> nth 0%N (ob_order o) z = size (cf_annih (c z)),
            size (ob_vertex o) = size U & forall t, nth 0%N (ob_vertex o) t = of_type t (su_v s)]].
Proof.
move=> C cplx ani G0 U x0 nf tm0 junk s g0 beta n_site n_bin shifts tau tok so re tr b0 n0 n31 ti hs w c g; rewrite -Prop_Dens.minus_zeroE => mz.
have [_ sg] := C57_running_sign tok re; rewrite -/w in sg.
have [po [pv [epo epv [spo npo] [spv npv] _]]] := C69_orders tok re tr.
have [mf sfl creat_ok dE stE] := walker_flavors cplx g0 n_bin shifts tau tok so re tr ti.
set fls := [seq measured_flavor ani x0 s z | z <- iota 0 nf] in mf sfl creat_ok dE stE.
have [st e1 [ss ssr]] := @measure_SlP C (fun t z a b => castM cplx (g0 t z a b)) beta n_site n_bin b0 n0 n31
   (su_sign s, (shifts, fls)) (introT andP (conj hs creat_ok)).
have [sm e2 [h1 h2 h3 h4 h5]] := @measureP C cplx g0 beta n_site tau (su_sign s) fls; rewrite sfl in h2 h3 h4 h5.
exists (Observed st sm po pv).
  by rewrite /measure_observables mf /= e1 /= e2 /= epo /= epv.
rewrite /=; split.
- by rewrite ss h1 /= sg.
- by move=> z s1 s2 zl s2l; have [-> ->] := ssr z s1 s2; split; apply: eq_map => k; rewrite stE.
- split=> // z zl; rewrite h4 // sg; congr (_ * (_ / _)); apply: eq_bigr => a _; rewrite dE //.
- split=> // f1 i f2 j l1 l2 l3 l4; have [] := h5 f1 i f2 j l1 l2 l3 l4; rewrite /idx4 => -> ->; split=> //.
  by rewrite sg /dcorr /sp_nij !dE.
- split=> // z zl; have [-> _] := npo z zl; by rewrite /c /= size_map.
Qed.
Print Assumptions C73_measurement.

Section Real.
Variables (C : numClosedFieldType) (G0 : sop rat_eqType -> sop rat_eqType -> C) (U : seq (vdef C)) (x0 : sop rat_eqType).

(* interaction strengths and alphas are real *)
Definition real_types : bool :=
  all (fun d : vdef C => (vd_U d \is Num.real) &&
    all (fun a => all (fun r => vd_alpha d a r \is Num.real) (iota 0 (vd_rank d))) (iota 0 (vd_naf d))) U.

Lemma det_real n (a : nat -> nat -> C) : (forall i j, a i j \is Num.real) -> det_of n a \is Num.real.
Proof.
move=> h; rewrite /det_of /determinant rpred_sum // => p _; rewrite rpredM ?rpredX ?rpredN ?rpred1 //.
by rewrite rpred_prod // => i _; rewrite mxE.
Qed.

Hypotheses (rG : forall x y, G0 x y \is Num.real) (rU : real_types).

Lemma alphas_real z (vs : seq (vertex rat_eqType)) : all (sp_vertex_ok U) vs -> all (fun t => t.2 \is Num.real) (sp_ops U z vs).
Proof.
elim: vs => [|v vs IH] //= /andP [vo vs1]; rewrite /sp_ops /=; case: ifP => [non|_]; last exact: IH.
rewrite /= all_cat IH // andbT all_map; apply/allP => r; rewrite mem_filter mem_iota /= => /andP [_ rl].
move: vo; rewrite /sp_vertex_ok (negbTE non) /= => /andP [vt va].
have /andP [_ /allP h] := all_nthP (vdef0 C) rU _ vt.
by apply: (allP (h (v_af v) _) r); rewrite mem_iota.
Qed.

Lemma mat_real (ops : seq (sop rat_eqType * sop rat_eqType * C)) : all (fun t => t.2 \is Num.real) ops -> forall i j, sp_mat G0 x0 ops i j \is Num.real.
Proof.
move=> h i j; rewrite /sp_mat rpredB //; case: eqP => _; last exact: rpred0.
case: (ltnP i (size ops)) => il; first exact: (all_nthP (term0 C x0) h).
by rewrite nth_default //= rpred0.
Qed.

Lemma U_real (v : vertex rat_eqType) : vd_U (sp_def U v) \is Num.real.
Proof.
rewrite /sp_def; case: (ltnP (@v_type rat_eqType v) (size U)) => h; last by rewrite nth_default //= rpred0.
by have /andP [] := all_nthP (vdef0 C) rU _ h.
Qed.

Lemma weight_real nf vs : all (sp_vertex_ok U) vs -> weight G0 U x0 nf vs \is Num.real.
Proof.
move=> ok; rewrite /weight rpredM // rpred_prod // => [fl _|v _]; last by rewrite rpredN U_real.
by apply/det_real/mat_real/alphas_real.
Qed.

Variables (g : rat -> nat -> nat -> C) (rg : forall t a b, g t a b \is Num.real).

Lemma extra_real mz tau (c : conf C) ans crs m : (forall i j, cf_N c i j \is Num.real) ->
  det_of (size (cf_annih c) + m) (with_extra g mz tau c ans crs) / det_of (size (cf_annih c)) (cf_N c) \is Num.real.
Proof.
move=> h; rewrite rpredM ?rpredV ?det_real // => i j; rewrite /with_extra /bordered.
by case: ifP => _; case: ifP.
Qed.

Lemma stau_real beta n_bin sign shifts (c : conf C) s1 s2 k : sign \is Num.real -> (forall i j, cf_N c i j \is Num.real) ->
  sp_stau g beta n_bin sign shifts c s1 s2 k \is Num.real.
Proof.
move=> hs h; rewrite /sp_stau rpred_sum // => s _; rewrite rpred_sum // => q _; case: ifP => _; last exact: rpred0.
rewrite !rpredM ?rpredX ?rpredN ?rpred1 ?rpredV ?det_real //; first by rewrite rpred_rat.
by move=> i j; rewrite /with_column; case: eqP.
Qed.
End Real.

Lemma det_ne0 (C : numClosedFieldType) (G0 : sop rat_eqType -> sop rat_eqType -> C) U x0 nf vs z :
  weight G0 U x0 nf vs != 0 -> (z < nf)%N -> det_of (size (sp_ops U z vs)) (sp_mat G0 x0 (sp_ops U z vs)) != 0.
Proof.
rewrite /weight mulf_eq0 negb_or => /andP [h _] zl.
by move/prodf_neq0: h => /(_ (Ordinal zl) isT).
Qed.

Lemma nij_real (C : numClosedFieldType) (G0 : sop rat_eqType -> sop rat_eqType -> C) U x0 nf
    (g : nat -> rat -> nat -> nat -> C) mz tau vs f1 i f2 j (c := conf_at G0 U x0 vs) :
  weight G0 U x0 nf vs != 0 -> (f1 < nf)%N ->
  (forall z a b, 'Re (sp_pair_added (g z) mz tau (c z) a b) = sp_pair_added (g z) mz tau (c z) a b) ->
  sp_nij g mz tau c f1 i f2 j = density_correlation g mz tau c f1 i f2 j.
Proof.
move=> wn l1 Rd; rewrite /sp_nij /density_correlation !Rd; case: eqP => // _; case: eqP => // _.
have iM := finv_inverse (det_ne0 wn l1).
have w2 := wick2 (g f1) mz tau (d := FlavorData [seq place t.1.1 | t <- sp_ops U f1 vs]
  [seq place t.1.2 | t <- sp_ops U f1 vs] _) i j (N := sp_mat G0 x0 (sp_ops U f1 vs)).
rewrite /= size_map in w2; rewrite [RHS](w2 _ iM).
by rewrite /c /conf_at !(pair_addedE _ iM).
Qed.

(* In the real program, with real Green functions and a real interaction, the sign of the
   weight, the functions, the densities and the correlations are handed over without loss. *)
Theorem C73_real :
  forall (C : numClosedFieldType) (ani : C) (G0 : sop rat_eqType -> sop rat_eqType -> C) (U : seq (vdef C))
         (x0 : sop rat_eqType) (nf : nat) (tm0 : rat_eqType) (junk : fmat C) (s : sub C rat_eqType)
         (g0 : rat -> nat -> nat -> nat -> C) (beta : rat) (n_site n_bin : nat) (shifts : seq rat) (tau : rat),
    sp_types_ok U ani nf -> sites_ok U n_site -> reach ani G0 U x0 nf tm0 junk s -> ~~ su_trying s ->
    0 < beta -> (0 < n_bin)%N -> is_int32 n_bin -> times_ok beta (su_v s) -> all (fun t => 0 <= t < beta) shifts ->
    (forall x y, G0 x y \is Num.real) -> real_types U ->
    let sgn := weight G0 U x0 nf (su_v s) / `|weight G0 U x0 nf (su_v s)| in
    let c := conf_at G0 U x0 (su_v s) in
    let g z t a b := 'Re (g0 t z a b) in
    let mz := sp_minus_zero beta in
    exists2 o, measure_observables false ani U x0 g0 beta n_site n_bin nf shifts tau s = Ok o &
    [/\ ss_sign (ob_stau o) = sgn /\ sm_sign (ob_dens o) = sgn,
        (forall z s1 s2, (z < nf)%N -> (s2 < n_site)%N ->
           ss_real (ob_stau o) z s1 s2 = [seq sp_stau (g z) beta n_bin sgn shifts (c z) s1 s2 k | k <- iota 0 n_bin] /\
           ss_imag (ob_stau o) z s1 s2 = nseq n_bin 0),
        (forall z, (z < nf)%N -> nth 0 (sm_dens (ob_dens o)) z =
           sgn * ((\sum_(a < n_site) density_product (g z) mz tau (c z) [:: val a]) / n_site%:R)) &
        (forall f1 i f2 j, (f1 < nf)%N -> (i < n_site)%N -> (f2 < nf)%N -> (j < n_site)%N ->
           nth 0 (sm_real (ob_dens o)) (((f1 * n_site + i) * nf + f2) * n_site + j)%N =
           sgn * density_correlation g mz tau c f1 i f2 j)].
Proof.
move=> C ani G0 U x0 nf tm0 junk s g0 beta n_site n_bin shifts tau tok so re tr b0 n0 n31 ti hs rG rU sgn c g mz.
have hi := reach_inv tok re; have [wn _] := C57_running_sign tok re.
have rw : weight G0 U x0 nf (su_v s) \is Num.real by exact: (weight_real x0 rG rU nf (i_vo hi)).
have rs : sgn \is Num.real by rewrite /sgn rpredM ?rpredV // normr_real.
have rN z i j : cf_N (c z) i j \is Num.real by exact: (mat_real x0 rG (alphas_real rU z (i_vo hi))).
have rg z t a b : g z t a b \is Num.real by exact: Creal_Re.
have [o e [[h1 h1'] h2 [_ h3] [_ h4] _]] :=
  @C73_measurement C false ani G0 U x0 nf tm0 junk s g0 beta n_site n_bin shifts tau tok so re tr b0 n0 n31 ti hs.
have Rs : 'Re sgn = sgn by apply/Creal_ReP.
have Rd z a b : 'Re (sp_pair_added (g z) mz tau (c z) a b) = sp_pair_added (g z) mz tau (c z) a b.
  by apply/Creal_ReP; apply: extra_real.
exists o => //; split.
- by rewrite h1 h1'; split.
- move=> z s1 s2 zl sl; have [-> ->] := h2 z s1 s2 zl sl.
  have st k := stau_real (rg z) beta n_bin shifts s1 s2 k rs (rN z).
  split; first by apply: eq_map => k; apply/Creal_ReP/st.
  apply: (@eq_from_nth _ 0) => [|k]; rewrite size_map size_iota ?size_nseq // => kl.
  by rewrite (nth_map 0%N) ?size_iota // nth_iota // nth_nseq kl; apply/Creal_ImP/st.
- move=> z zl; rewrite h3 // -/sgn Rs; congr (_ * (_ / _)); apply: eq_bigr => a _; exact: Rd.
- move=> f1 i f2 j l1 l2 l3 l4; have [-> _] := h4 f1 i f2 j l1 l2 l3 l4; rewrite -/sgn Rs; congr (_ * _).
  exact: nij_real wn l1 Rd.
Qed.
Print Assumptions C73_real.

(* ------------------------------------------------------------------ C74 *)

Lemma idx4_surj nf ns k : (k < nf * ns * nf * ns)%N ->
  exists f1 i f2 j, [/\ (f1 < nf)%N, (i < ns)%N, (f2 < nf)%N, (j < ns)%N & k = (((f1 * ns + i) * nf + f2) * ns + j)%N].
Proof.
move=> kl; have n0 : (0 < ns)%N by case: ns kl => // ; rewrite muln0.
have f0 : (0 < nf)%N by case: nf kl.
exists (k %/ ns %/ nf %/ ns)%N, ((k %/ ns %/ nf) %% ns)%N, ((k %/ ns) %% nf)%N, (k %% ns)%N; split.
- by rewrite !ltn_divLR.
- by rewrite ltn_mod.
- by rewrite ltn_mod.
- by rewrite ltn_mod.
- by rewrite -!divn_eq.
Qed.

(* Two walkers that hold the same vertices, in any order and however numbered, hand the same
   values to the accumulators for the same random numbers, whatever the histories by which
   they were reached. *)
Theorem C74_same_vertices :
  forall (C : numClosedFieldType) (cplx : bool) (ani : C) (G0 : sop rat_eqType -> sop rat_eqType -> C) (U : seq (vdef C))
         (x0 : sop rat_eqType) (nf : nat) (tm0 tm0' : rat_eqType) (junk junk' : fmat C) (s s' : sub C rat_eqType)
         (g0 : rat -> nat -> nat -> nat -> C) (beta : rat) (n_site n_bin : nat) (shifts : seq rat) (tau : rat),
    sp_types_ok U ani nf -> sites_ok U n_site ->
    reach ani G0 U x0 nf tm0 junk s -> ~~ su_trying s -> reach ani G0 U x0 nf tm0' junk' s' -> ~~ su_trying s' ->
    0 < beta -> (0 < n_bin)%N -> is_int32 n_bin -> times_ok beta (su_v s) -> all (fun t => 0 <= t < beta) shifts ->
    perm_eq [seq v.1 | v <- su_v s] [seq v.1 | v <- su_v s'] ->
    exists o o', [/\ measure_observables cplx ani U x0 g0 beta n_site n_bin nf shifts tau s = Ok o,
      measure_observables cplx ani U x0 g0 beta n_site n_bin nf shifts tau s' = Ok o',
      ss_sign (ob_stau o) = ss_sign (ob_stau o') /\
      (forall z s1 s2, (z < nf)%N -> (s2 < n_site)%N ->
         ss_real (ob_stau o) z s1 s2 = ss_real (ob_stau o') z s1 s2 /\
         ss_imag (ob_stau o) z s1 s2 = ss_imag (ob_stau o') z s1 s2),
      ob_dens o = ob_dens o' & ob_order o = ob_order o' /\ ob_vertex o = ob_vertex o'].
Proof.
move=> C cplx ani G0 U x0 nf tm0 tm0' junk junk' s s' g0 beta n_site n_bin shifts tau tok so re tr re' tr' b0 n0 n31 ti hs pv.
have ti' : times_ok beta (su_v s').
  have e (l : seq (vertex rat_eqType)) : times_ok beta l = all (fun x : nat * nat * rat * bool => 0 <= x.1.2 < beta) [seq v.1 | v <- l].
    by rewrite all_map.
  by rewrite e -(perm_all _ pv) -e.
have [wn _] := C57_running_sign tok re.
have [o e [[h1 h1'] h2 [h3s h3] [[h4s h4s'] h4] [h5 h6 h7 h8]]] :=
  @C73_measurement C cplx ani G0 U x0 nf tm0 junk s g0 beta n_site n_bin shifts tau tok so re tr b0 n0 n31 ti hs.
have [o' e' [[k1 k1'] k2 [k3s k3] [[k4s k4s'] k4] [k5 k6 k7 k8]]] :=
  @C73_measurement C cplx ani G0 U x0 nf tm0' junk' s' g0 beta n_site n_bin shifts tau tok so re' tr' b0 n0 n31 ti' hs.
rewrite -(weight_same G0 U x0 nf pv) in k1 k1' k2 k3 k4.
have inv z (zl : (z < nf)%N) := finv_inverse (det_ne0 wn zl).
have pe z : perm_eq (sp_ops U z (su_v s')) (sp_ops U z (su_v s)) by rewrite perm_sym ops_same.
have dE z (h : rat -> nat -> nat -> C) a b : (z < nf)%N -> sp_pair_added h (sp_minus_zero beta) tau (conf_at G0 U x0 (su_v s') z) a b =
    sp_pair_added h (sp_minus_zero beta) tau (conf_at G0 U x0 (su_v s) z) a b.
  by move=> zl; exact: (pair_added_perm _ (pe z) (inv z zl)).
exists o, o'; split=> //.
- rewrite h1 k1; split=> // z s1 s2 zl sl; have [-> ->] := h2 z s1 s2 zl sl; have [-> ->] := k2 z s1 s2 zl sl.
  by split; apply: eq_map => k; rewrite /conf_at (stau_perm _ (pe z) (inv z zl)).
- case: (ob_dens o) (ob_dens o') h1' h3s h3 h4s h4s' h4 k1' k3s k3 k4s k4s' k4 => [sg d r i] [sg' d' r' i'] /=.
  move=> -> h3s h3 h4s h4s' h4 -> k3s k3 k4s k4s' k4.
  have nE f1 a f2 b : (f1 < nf)%N -> (f2 < nf)%N ->
    sp_nij (fun z t a b => castM cplx (g0 t z a b)) (sp_minus_zero beta) tau (conf_at G0 U x0 (su_v s)) f1 a f2 b =
    sp_nij (fun z t a b => castM cplx (g0 t z a b)) (sp_minus_zero beta) tau (conf_at G0 U x0 (su_v s')) f1 a f2 b.
    by move=> l1 l2; rewrite /sp_nij !dE.
  congr Sample.
  + apply: (@eq_from_nth _ 0) => [|z]; rewrite h3s ?k3s // => zl; rewrite h3 // k3 //.
    by congr (_ * (_ / _)); apply: eq_bigr => a _; rewrite -[density_product _ _ _ _ _]/(sp_pair_added _ _ _ _ _ _) -dE.
  + apply: (@eq_from_nth _ 0) => [|k]; rewrite h4s ?k4s // => /idx4_surj [f1 [a [f2 [b [l1 l2 l3 l4 ->]]]]].
    by have [-> _] := h4 f1 a f2 b l1 l2 l3 l4; have [-> _] := k4 f1 a f2 b l1 l2 l3 l4; rewrite nE.
  + apply: (@eq_from_nth _ 0) => [|k]; rewrite h4s' ?k4s' // => /idx4_surj [f1 [a [f2 [b [l1 l2 l3 l4 ->]]]]].
    by have [_ ->] := h4 f1 a f2 b l1 l2 l3 l4; have [_ ->] := k4 f1 a f2 b l1 l2 l3 l4.
- split; first by apply: (@eq_from_nth _ 0%N) => [|z]; rewrite h5 ?k5 // => zl; rewrite h6 // k6 // /= !size_map (perm_size (pe z)).
  by apply: (@eq_from_nth _ 0%N) => [|t]; rewrite h7 ?k7 // => tl; rewrite h8 k8 (of_type_same t pv).
Qed.
Print Assumptions C74_same_vertices.

(* ------------------------------------------------------------------ C75 *)

Section Run.
Variables (C : numClosedFieldType) (ani : C) (G0 : sop rat_eqType -> sop rat_eqType -> C) (U : seq (vdef C)).
Variables (x0 : sop rat_eqType) (nf : nat) (tm0 : rat_eqType) (junk : fmat C).
Variables (beta : rat) (n_site n_bin : nat).

(* a measurement of a run: shifts and tau as drawn, a walker between two updates *)
Definition run_ok (m : seq rat * rat * sub C rat_eqType) : Prop :=
  [/\ reach ani G0 U x0 nf tm0 junk m.2, ~~ su_trying m.2, times_ok beta (su_v m.2) & all (fun t => 0 <= t < beta) m.1.1].
(* the sign of the weight of its vertices *)
Definition run_sign (m : seq rat * rat * sub C rat_eqType) : C :=
  weight G0 U x0 nf (su_v m.2) / `|weight G0 U x0 nf (su_v m.2)|.
Definition run_conf (m : seq rat * rat * sub C rat_eqType) : nat -> conf C := conf_at G0 U x0 (su_v m.2).

Fixpoint all_run_ok (ms : seq (seq rat * rat * sub C rat_eqType)) : Prop :=
  if ms is m :: ms' then run_ok m /\ all_run_ok ms' else True.

Lemma run_sum (f h : seq rat * rat * sub C rat_eqType -> C) ms : all_run_ok ms -> (forall m, run_ok m -> f m = h m) ->
  \sum_(m <- ms) f m = \sum_(m <- ms) h m.
Proof. by elim: ms => [|m ms IH] /=; rewrite ?big_nil // !big_cons => -[h1 h2] e; rewrite e // IH. Qed.
End Run.

(* The results of a whole run of the real program: /densities, /ni_nj and /SigmaG_tau are the
   averages over the measured configurations, weighted with the sign, of the quotients of
   determinants of the vertices, divided by the mean sign; nothing throws and no access is out
   of range. *)
Theorem C75_results :
  forall (C : numClosedFieldType) (ani : C) (G0 : sop rat_eqType -> sop rat_eqType -> C) (U : seq (vdef C))
         (x0 : sop rat_eqType) (nf : nat) (tm0 : rat_eqType) (junk : fmat C)
         (g0 : rat -> nat -> nat -> nat -> C) (beta : rat) (n_site n_bin : nat)
         (sqrt : C -> C) (bessel : nat -> nat -> C) (nm nl : nat) (ms : seq (seq rat * rat * sub C rat_eqType)),
    sp_types_ok U ani nf -> sites_ok U n_site -> 0 < beta -> (0 < n_bin)%N -> is_int32 n_bin ->
    (forall x y, G0 x y \is Num.real) -> real_types U -> (0 < nl)%N -> sqrt 1 = 1 ->
    all_run_ok ani G0 U x0 nf tm0 junk beta ms ->
    let sgn := run_sign G0 U x0 nf in
    let conf := run_conf G0 U x0 in
    let g z t a b := 'Re (g0 t z a b) in
    let mz := sp_minus_zero beta in
    let Z := \sum_(m <- ms) sgn m in
    Z != 0 ->
    exists2 l, measure_run false ani U x0 g0 beta n_site n_bin nf ms = Ok l &
    [/\ exists dens ni_nj, [/\ postprocess_densities n_site nf [seq ob_dens o | o <- l] = Ok (dens, ni_nj), size dens = nf,
          (forall z, (z < nf)%N -> nth 0 dens z =
             (\sum_(m <- ms) sgn m * ((\sum_(a < n_site) density_product (g z) mz m.1.2 (conf m z) [:: val a]) / n_site%:R)) / Z) &
          forall f1 i f2 j, (f1 < nf)%N -> (i < n_site)%N -> (f2 < nf)%N -> (j < n_site)%N ->
            ni_nj f1 i f2 j = (\sum_(m <- ms) sgn m * density_correlation g mz m.1.2 (conf m) f1 i f2 j) / Z] &
        forall z s1 s2, (z < nf)%N -> (s2 < n_site)%N ->
          exists Stau Sl Sw, [/\ postprocess_Sl sqrt bessel beta nm nl n_bin [seq ob_stau o | o <- l] z s1 s2 = Ok (Stau, Sl, Sw),
            size Stau = n_bin & forall k, (k < n_bin)%N -> nth 0 Stau k =
              (\sum_(m <- ms) sp_stau (g z) beta n_bin (sgn m) m.1.1 (conf m z) s1 s2 k) / Z]].
Proof.
move=> C ani G0 U x0 nf tm0 junk g0 beta n_site n_bin sqrt bessel nm nl ms tok so b0 n0 n31 rG rU nl0 sq1 ok sgn conf g; rewrite -Prop_Dens.minus_zeroE => mz Z Z0.
pose fl (m : seq rat * rat * sub C rat_eqType) := [seq measured_flavor ani x0 m.2 z | z <- iota 0 nf].
pose cs1 := [seq (m.1.2, (su_sign m.2, fl m)) | m <- ms].
pose cs2 := [seq (su_sign m.2, (m.1.1, fl m)) | m <- ms].
have sg m : run_ok ani G0 U x0 nf tm0 junk beta m -> su_sign m.2 = sgn m.
  by move=> [re _ _ _]; have [_ ->] := C57_running_sign tok re.
have rs m : run_ok ani G0 U x0 nf tm0 junk beta m -> sgn m \is Num.real.
  move=> [re _ _ _]; have hi := reach_inv tok re.
  have rw : weight G0 U x0 nf (su_v m.2) \is Num.real by exact: (weight_real x0 rG rU nf (i_vo hi)).
  by rewrite /sgn /run_sign rpredM ?rpredV // normr_real.
have Rs m : run_ok ani G0 U x0 nf tm0 junk beta m -> 'Re (su_sign m.2) = sgn m.
  by move=> h; rewrite (sg m h); apply/Creal_ReP/rs.
have e1 : \sum_(c <- cs1) 'Re c.2.1 = Z by rewrite big_map; apply: (run_sum ok).
have e2 : \sum_(c <- cs2) 'Re c.1 = Z by rewrite big_map; apply: (run_sum ok).
have ok1 : all (fun c => size c.2.2 == nf) cs1.
  by rewrite /cs1; elim: (ms) => //= m ms' ->; rewrite size_map size_iota eqxx.
have ok2 : all (config_ok beta n_site) cs2.
  rewrite /cs2; elim: (ms) ok => //= m ms' IH [[re tr ti hs] h]; rewrite IH // andbT /config_ok /= hs.
  by have [] := walker_flavors false g0 n_bin m.1.1 m.1.2 tok so re tr ti.
have s0 : (0 < size cs1)%N by rewrite size_map; move: Z0; rewrite /Z; case: (ms) => //; rewrite big_nil eqxx.
have [|l1 el1 [dens [ni_nj [p1 p2 p3 p4]]]] := @postP C false g0 beta n_site nf cs1 s0 ok1; first by rewrite e1.
have [|l2 el2 hl2] := @C67_history C sqrt bessel (fun t z a b => castM false (g0 t z a b)) beta n_site n_bin b0 n0 n31 nm nl cs2 nl0 sq1 ok2.
  by rewrite e2.
have [l el [q1 q2]] : exists2 l, measure_run false ani U x0 g0 beta n_site n_bin nf ms = Ok l &
    [seq ob_dens o | o <- l] = l1 /\ [seq ob_stau o | o <- l] = l2.
  rewrite /cs1 /cs2 in el1 el2; elim: (ms) ok (l1) (l2) el1 el2 => [|m ms' IH] /= okm k1 k2.
    by move=> [<-] [<-]; exists [::].
  case: okm => -[re tr ti hs] okm.
  have [mf _ _ _ _] := walker_flavors false g0 n_bin m.1.1 m.1.2 tok so re tr ti.
  have [po [pv [epo epv _ _ _]]] := C69_orders tok re tr.
  rewrite /measure_observables mf /= -/(fl m).
  case: (measure_densities _ _ _ _ _ _ _) => //= sm; case: (measure_Sl _ _ _ _ _ _ _) => [st|||] //=; try by move=> _.
  case E1: (measure_all _ _ _ _ _) => [r1|||] //= -[<-]; case E2: (measure_Sl_all _ _ _ _ _) => [r2|||] //= -[<-].
  have [l' -> [a1 a2]] := IH okm r1 r2 E1 E2; rewrite epo /= epv /=.
  by eexists; first reflexivity; rewrite /= a1 a2.
exists l => //; rewrite q1 q2; split.
  exists dens, ni_nj; split=> //.
  - move=> z zl; rewrite p3 // e1 big_map; congr (_ / _); apply: (run_sum ok) => m mok /=; rewrite Rs //.
    congr (_ * (_ / _)); apply: eq_bigr => a _.
    have [re tr ti hs] := mok; have hi := reach_inv tok re.
    have [_ _ _ dE _] := walker_flavors false g0 n_bin m.1.1 m.1.2 tok so re tr ti; rewrite dE //.
    apply/Creal_ReP; apply: extra_real; first by move=> *; exact: Creal_Re.
    exact: (mat_real x0 rG (alphas_real rU z (i_vo hi))).
  - move=> f1 i f2 j l1' l2' l3' l4'; rewrite p4 // e1 big_map; congr (_ / _); apply: (run_sum ok) => m mok /=; rewrite Rs //.
    congr (_ * _); have [re tr ti hs] := mok; have hi := reach_inv tok re.
    have [_ _ _ dE _] := walker_flavors false g0 n_bin m.1.1 m.1.2 tok so re tr ti.
    have [wn _] := C57_running_sign tok re.
    have Rd z a b : 'Re (sp_pair_added (g z) mz m.1.2 (conf m z) a b) = sp_pair_added (g z) mz m.1.2 (conf m z) a b.
      apply/Creal_ReP; apply: extra_real; first by move=> *; exact: Creal_Re.
      exact: (mat_real x0 rG (alphas_real rU z (i_vo hi))).
    rewrite -(@nij_real _ G0 U x0 nf g mz m.1.2 _ f1 i f2 j wn l1' Rd).
    by rewrite /dcorr /sp_nij !dE.
move=> z s1 s2 zl sl; have [Stau [Sl [Sw [h1 [h2 _ _] h3 _ _]]]] := hl2 z s1 s2.
exists Stau, Sl, Sw; split=> // k kl; rewrite h3 // e2 big_map; congr (_ / _); apply: (run_sum ok) => m mok.
have [re tr ti hs] := mok.
have [_ _ _ _ stE] := walker_flavors false g0 n_bin m.1.1 m.1.2 tok so re tr ti.
exact: (stE z s1 s2 k zl sl).
Qed.
Print Assumptions C75_results.

(* ---- cases ---- *)

Section Cases.
Variable C : numClosedFieldType.
(* one site, one flavor, one type with a single part: alpha 3, U 1; two vertices *)
Let UM : seq (vdef C) := [:: VDef 1 [:: 0%N] [:: 0%N; 0%N] 1 1 (fun _ _ => 3%:R)].
Let G1 (x y : sop rat_eqType) : C := 1.
Let xM : sop rat_eqType := (0%N, 0%N, 0, 0).
Let aniM : C := 7%:R.
Let vM (t : rat) : vertex rat_eqType := (0%N, 0%N, t, false, 0%N).

Lemma tokM : sp_types_ok UM aniM 1.
Proof.
rewrite /sp_types_ok /= /sp_type_ok /= andbT oner_eq0 /=.
by rewrite !pnatr_eq0 (eqr_nat _ 3 1) (eqr_nat _ 3 7).
Qed.

Lemma weightM t t' : weight G1 UM xM 1 [:: vM t; vM t'] = 3%:R.
Proof.
rewrite /weight big_ord_recl big_ord0 mulr1 !big_cons big_nil /= mulr1 mulrNN mulr1 mulr1.
rewrite det_of2 /sp_mat /= /G1 !subr0.
have -> : 1 - 3%:R = - 2%:R :> C by rewrite -[3%N]/(1 + 2)%N natrD opprD addrA subrr add0r.
by rewrite mulrNN mulr1 -natrM -[(2 * 2)%N]/(3 + 1)%N natrD addrK.
Qed.

Let t1 : rat := 1 / 4%:R.
Let t2 : rat := 3%:R / 4%:R.

(* two walkers with the same two vertices in opposite order *)
Example C74_case (j : C) (junk : fmat C) : exists s s',
  [/\ [/\ sp_types_ok UM aniM 1, sites_ok UM 1, times_ok 1 (su_v s) & all (fun t => 0 <= t < (1 : rat)) [:: t1; t2]],
      reach aniM G1 UM xM 1 0 junk s /\ ~~ su_trying s, reach aniM G1 UM xM 1 0 junk s' /\ ~~ su_trying s',
      perm_eq [seq v.1 | v <- su_v s] [seq v.1 | v <- su_v s'] & [seq v.1 | v <- su_v s] != [seq v.1 | v <- su_v s']].
Proof.
have w t t' : weight G1 UM xM 1 [:: vM t; vM t'] != 0 by rewrite weightM pnatr_eq0.
have [//|//|s _ [re tr sv _]] := @C58_construct C rat_eqType aniM G1 UM xM 1 0 junk j [:: vM t1; vM t2] tokM _ _ (w _ _).
have [//|//|s' _ [re' tr' sv' _]] := @C58_construct C rat_eqType aniM G1 UM xM 1 0 junk j [:: vM t2; vM t1] tokM _ _ (w _ _).
have ti : times_ok 1 (su_v s).
  have -> : times_ok 1 (su_v s) = all (fun x : nat * nat * rat * bool => 0 <= x.1.2 < 1) [seq v.1 | v <- su_v s] by rewrite all_map.
  by rewrite sv; vm_compute.
exists s, s'; split; first by split; [exact: tokM | | exact: ti | by vm_compute].
- by split.
- by split.
- by rewrite sv sv'; vm_compute.
- by rewrite sv sv'; vm_compute.
Qed.

(* measured with the constant Green function 1: the sign is 1, the order 2, and the density is
   that of Wick's theorem *)
Example C73_case (j : C) (junk : fmat C) : exists s o,
  [/\ reach aniM G1 UM xM 1 0 junk s, ~~ su_trying s,
      measure_observables false aniM UM xM (fun _ _ _ _ => 1) 1 1 10 1 [:: t1; t2] t1 s = Ok o,
      ss_sign (ob_stau o) = 1 & ob_order o = [:: 2]%N /\ sm_dens (ob_dens o) = [:: 3%:R]].
Proof.
have w : weight G1 UM xM 1 [:: vM t1; vM t2] != 0 by rewrite weightM pnatr_eq0.
have [//|//|s _ [re tr sv sg]] := @C58_construct C rat_eqType aniM G1 UM xM 1 0 junk j [:: vM t1; vM t2] tokM _ _ w.
have rU : real_types UM by rewrite /real_types /= !andbT real1 realn.
have rG x y : G1 x y \is Num.real by exact: real1.
have ti : times_ok 1 (su_v s).
  have -> : times_ok 1 (su_v s) = all (fun x : nat * nat * rat * bool => 0 <= x.1.2 < 1) [seq v.1 | v <- su_v s] by rewrite all_map.
  by rewrite sv; vm_compute.
have pv : perm_eq [seq v.1 | v <- su_v s] [seq v.1 | v <- [:: vM t1; vM t2]] by rewrite sv.
have eo : sp_ops UM 0 (su_v s) = sp_ops UM 0 [:: vM t1; vM t2].
  have un (l : seq (vertex rat_eqType)) : map unnumbered l = [seq (x, 0%N) | x <- [seq v.1 | v <- l]] by rewrite -map_comp.
  by rewrite ops_unnumbered [RHS]ops_unnumbered !un sv.
have [o e [[h1 h1'] h2 h3 h4]] := @C73_real C aniM G1 UM xM 1 0 junk s (fun _ _ _ _ => 1) 1 1 10 [:: t1; t2] t1
  tokM isT re tr ltr01 isT isT ti isT rG rU.
have [o2 e2 [_ _ [sd _] _ [so no _ _]]] := @C73_measurement C false aniM G1 UM xM 1 0 junk s (fun _ _ _ _ => 1) 1 1 10 [:: t1; t2] t1
  tokM isT re tr ltr01 isT isT ti isT.
move: e2; rewrite e => -[eo2]; subst o2.
have wE : weight G1 UM xM 1 (su_v s) = 3%:R by rewrite (weight_same _ _ _ _ pv) weightM.
have sE : weight G1 UM xM 1 (su_v s) / `|weight G1 UM xM 1 (su_v s)| = 1.
  by rewrite wE normr_nat divff // pnatr_eq0.
exists s, o; split=> //; first by rewrite h1 sE.
split.
  apply: (@eq_from_nth _ 0%N) => [|z]; rewrite so // => zl; rewrite no //.
  by case: z zl => // _; rewrite /= eo size_map.
apply: (@eq_from_nth _ 0) => [|z]; rewrite sd // => zl; rewrite h3 //.
case: z zl => // _; rewrite sE big_ord_recl big_ord0 addr0 divr1 mul1r /=.
pose M (i j : nat) : C := if i == j then - (2%:R / 3%:R) else - (1 / 3%:R).
have iM : inverse_of (size (sp_ops UM 0 (su_v s))) (sp_mat G1 xM (sp_ops UM 0 (su_v s))) M.
  rewrite eo => i' j'; rewrite /= => il jl; rewrite !big_ord_recl big_ord0 addr0 /sp_mat /M /= /G1.
  have n3 : 3%:R != 0 :> C by rewrite pnatr_eq0.
  by case: i' il => [|[|]] // _; case: j' jl => [|[|]] // _ /=; field.
have -> : density_product (fun _ _ _ => 'Re 1) (sp_minus_zero 1) t1 (conf_at G1 UM xM (su_v s) 0) [:: 0%N] =
    sp_pair_added (fun _ _ _ => 'Re 1) (sp_minus_zero 1) t1 (conf_of G1 xM (sp_ops UM 0 (su_v s))) 0 0 by [].
rewrite (pair_addedE _ iM) /wickm /= size_map eo /= !big_ord_recl !big_ord0 !addr0 /M /=.
have -> : 'Re (1 : C) = 1 by apply/Creal_ReP/real1.
have n3 : 3%:R != 0 :> C by rewrite pnatr_eq0.
by field.
Qed.

(* two measurements, one of each walker *)
Example C75_case (j : C) (junk : fmat C) : exists ms : seq (seq rat * rat * sub C rat_eqType),
  [/\ all_run_ok aniM G1 UM xM 1 0 junk 1 ms, size ms = 2%N, real_types UM &
      \sum_(m <- ms) run_sign G1 UM xM 1 m = 2%:R].
Proof.
have w t t' : weight G1 UM xM 1 [:: vM t; vM t'] != 0 by rewrite weightM pnatr_eq0.
have [//|//|s _ [re tr sv _]] := @C58_construct C rat_eqType aniM G1 UM xM 1 0 junk j [:: vM t1; vM t2] tokM _ _ (w _ _).
have [//|//|s' _ [re' tr' sv' _]] := @C58_construct C rat_eqType aniM G1 UM xM 1 0 junk j [:: vM t2; vM t1] tokM _ _ (w _ _).
have ti (l : seq (vertex rat_eqType)) : all (fun x : nat * nat * rat * bool => 0 <= x.1.2 < 1) [seq v.1 | v <- l] -> times_ok 1 l.
  by rewrite all_map.
have sg (l : seq (vertex rat_eqType)) a b : [seq v.1 | v <- l] = [seq v.1 | v <- [:: vM a; vM b]] ->
    weight G1 UM xM 1 l / `|weight G1 UM xM 1 l| = 1.
  move=> e; have -> : weight G1 UM xM 1 l = 3%:R by rewrite (@weight_same _ _ _ _ _ l [:: vM a; vM b]) ?weightM // e.
  by rewrite normr_nat divff // pnatr_eq0.
exists [:: ([:: t1; t2], t1, s); ([:: t2], t2, s')]; split=> //.
- split; first by split=> //; apply: ti; rewrite sv; vm_compute.
  by split=> //; split=> //; apply: ti; rewrite sv'; vm_compute.
- by rewrite /real_types /= !andbT real1 realn.
- by rewrite !big_cons big_nil addr0 /run_sign /= (sg _ _ _ sv) (sg _ _ _ sv').
Qed.
End Cases.
