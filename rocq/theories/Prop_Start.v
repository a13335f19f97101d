(* Property theorems: C86 (the start of the program). *)
From Coq Require Import ZArith NArith.
From mathcomp Require Import all_ssreflect order ssralg ssrnum ssrint rat matrix algC zify.
From mathcomp.algebra_tactics Require Import ring.
From Verif Require Import Outcome MatLib MatSpec SubModel SubSpec SubProofs Prop_Sub.
From Verif Require Import UMatModel UMatSpec UMatProofs Prop_UMat.
From Verif Require Import SplineModel GreenModel GreenProofs GreenTableModel GreenTableProofs Prop_GreenTable StartModel Prop_Shift.
From Verif Require Import BinModel Prop_Bin LegendreModel DensModel DensSpec SlModel OrderModel MeasModel MeasSpec Prop_Meas.

Set Implicit Arguments.
Unset Strict Implicit.
Unset Printing Implicit Defensive.

Local Open Scope ring_scope.
Import Order.TTheory GRing.Theory Num.Theory.

Lemma obI2 A B (x : outcome A) (f : A -> outcome B) (y : B) : obind x f = Ok y -> exists2 a, x = Ok a & f a = Ok y.
Proof. by case: x => //= a e; exists a. Qed.

Lemma row_count cplx h rows beta nf ns g : (0 < nf)%N -> (0 < ns)%N ->
  read_itime_data cplx h rows beta nf ns = Ok g -> (1 < h_tau h)%N.
Proof.
move=> f0 s0 acc; have [table [_ _ _ eg ck]] := accepted acc.
have [|z [w [e1 _ _]]] := check_pointsP ck (f := 0%N) (s := 0%N) (s2 := 0%N) (tau := 0).
  by apply/allpairsP; exists ((0%N, 0%N, 0%N), 0); split=> //; rewrite mem_triples f0 s0.
move: e1; rewrite eg /interpolate /=; case: ifP => // /and5P[_ _ _ + +] _.
move: (if _ then _ else _) => idx; clear; lia.
Qed.

Section Started.
Variables (F : numFieldType) (val : cnum -> F) (ofint : int -> cnum) (c0 : cnum).
Variables (maxel w64 w32 fuel : nat) (cplx : bool).
Variables (Dec : Type) (parse : Dec -> rat_eqType).
Variables (ani junk : F) (x0 : sop rat_eqType).
Notation start := (start val ofint c0 maxel w64 w32 fuel cplx parse ani junk x0).
Notation interaction := (interaction val ofint c0 maxel w64 w32).

Lemma startI (i : input F Dec) st : start i = Ok st ->
  exists vs, [/\ interaction i = Ok (st_U st), noninteracting cplx i = Ok (st_green st), 0 < in_period i,
    initial_vertices parse i (st_U st) = Ok vs &
    sub_from ani (lookup val fuel (st_green st)) [seq d.1 | d <- st_U st] x0 (in_spins i) junk vs = Ok (st_walker st)].
Proof.
rewrite /StartModel.start => h; have [U e1 {}h] := obI2 h; have [g e2 {}h] := obI2 h.
move: h; case: ifP => // hp h; have [vs e3 {}h] := obI2 h; have [s e4 {}h] := obI2 h; case: h => <- /=.
by exists vs; split=> //; rewrite ltNge hp.
Qed.

Lemma interactionI (i : input F Dec) U : interaction i = Ok U ->
  [/\ (exists u, in_U i = Some u /\ in_Ufile i = None) \/ (exists text, in_U i = None /\ in_Ufile i = Some (Some text)),
      (in_U i -> in_spins i = 1%N \/ in_spins i = 2%N), [seq x.2 | x <- U] = iota 0 (size U) &
      forall k, (k < size U)%N -> indices_ok (in_sites i) (in_spins i) (nth (vdef0 F, 0%N) U k).1].
Proof.
rewrite /StartModel.interaction; case: (in_Ufile i) (in_U i) => [[text|]|] [u|] //.
  move=> h; have [h1 h2] := load_range h; split=> //; by right; exists text.
move=> h; have hnf : in_spins i = 1%N \/ in_spins i = 2%N.
  by move: h; rewrite /set_onsite_U -negb_or; case: orP => // -[] /eqP-> _; [left|right].
have [vl [e1 e2 e3]] : exists vl, [/\ set_onsite_U (in_sites i) (in_spins i) u (delta0 F) = Ok vl,
    [seq x.2 | x <- vl] = iota 0 (size vl) &
    forall k, (k < size vl)%N -> indices_ok (in_sites i) (in_spins i) (nth (vdef0 F, 0%N) vl k).1].
  have [vl [h1 h2 h3 h4]] := @onsite_ok F (in_sites i) (in_spins i) u (delta0 F) (introT orP (match hnf with or_introl e => or_introl (introT eqP e) | or_intror e => or_intror (introT eqP e) end)).
  exists vl; split=> // k lk; case: hnf => e; rewrite e in h1 h2 *.
    have [vl' [k1 k2 k3]] := @C37_one_flavor F (in_sites i) u (delta0 F).
    move: k1; rewrite h1 => -[ev]; subst vl'; rewrite k2 in lk.
    by move: (k3 k lk); case: (nth _ vl k) => d id [_ _ _ _ []].
  have [vl' [k1 k2 k3]] := @C37_two_flavors F (in_sites i) u (delta0 F).
  move: k1; rewrite h1 => -[ev]; subst vl'; rewrite k2 in lk.
  by move: (k3 k lk); case: (nth _ vl k) => d id [_ _ _ _ []].
move: h; rewrite e1 => -[<-]; split=> //; by left; exists u.
Qed.

Lemma sites_started (i : input F Dec) U : interaction i = Ok U -> sp_sites (in_sites i) [seq d.1 | d <- U].
Proof.
move=> /interactionI[_ _ _ h]; rewrite /sp_sites all_map; apply/(all_nthP (vdef0 F, 0%N)) => k lk /=.
by have [] := h k lk.
Qed.

Lemma config_types (i : input F Dec) (U : seq (udef F)) vs : initial_vertices parse i U = Ok vs ->
  all (fun v => v_type v < size U)%N vs /\ all (fun v => ~~ v_non v) vs.
Proof.
rewrite /initial_vertices; case: (in_config i) => [l|[<-]] //; rewrite /load_config.
have h n l' acc : load_rows parse [seq d.1 | d <- U] n l' acc = Ok vs ->
  all (fun v => v_type v < size U)%N acc /\ all (fun v => ~~ v_non v) acc ->
  all (fun v => v_type v < size U)%N vs /\ all (fun v => ~~ v_non v) vs.
  elim: n l' acc => [|n IH] l' acc /=; first by case=> ->.
  case: l' => [|[z|z] [|[ty|ty] [|[af|af] [|[t|t] l']]]] //; rewrite size_map; case: ifP => // lt.
  rewrite C39_push_back /= => e [h1 h2]; apply: IH e _; rewrite !all_rcons /= h1 h2 andbT; by split.
case: l => [|[n|n] l] //; case: ifP => [_ [<-]|_ e] //.
by apply: h e _.
Qed.
End Started.

(* ------------------------------------------------------------------ C86 *)

(* The program starts only if exactly one of model.U and model.U_matrix_file is supplied (with
   model.U: one or two spins), the table of the Green function exists and belongs to the given
   beta, sites and spins with every line in its place, and the measurement period is positive;
   then the indices of every interaction term are those of existing sites and spins, and the
   terms carry their position as number. *)
Theorem C86_checks :
  forall (F : numFieldType) (val : cnum -> F) (ofint : int -> cnum) (c0 : cnum) (maxel w64 w32 fuel : nat) (cplx : bool)
         (Dec : Type) (parse : Dec -> rat_eqType) (ani junk : F) (x0 : sop rat_eqType) (i : input F Dec) (st : started F),
    start val ofint c0 maxel w64 w32 fuel cplx parse ani junk x0 i = Ok st -> (0 < in_sites i)%N -> (0 < in_spins i)%N ->
    [/\ (exists u, [/\ in_U i = Some u, in_Ufile i = None & in_spins i = 1%N \/ in_spins i = 2%N]) \/
        (exists text, in_U i = None /\ in_Ufile i = Some (Some text)),
        0 < in_period i,
        (exists h rows, [/\ in_G0 i = Some (Some (h, rows)), (1 < h_tau h)%N, h_flavor h = in_spins i /\ h_site h = in_sites i,
           `|h_beta h - in_beta i| <= tolerance & ordered (in_spins i) (in_sites i) (h_tau h) rows]),
        [seq x.2 | x <- st_U st] = iota 0 (size (st_U st)) &
        forall k, (k < size (st_U st))%N -> indices_ok (in_sites i) (in_spins i) (nth (vdef0 F, 0%N) (st_U st) k).1].
Proof.
move=> F val ofint c0 maxel w64 w32 fuel cplx Dec parse ani junk x0 i st /startI[vs [e1 e2 e3 _ _]] s0 f0.
have [h1 h2 h3 h4] := interactionI e1; split=> //.
  case: h1 => [[u [k1 k2]]|h1]; last by right.
  by left; exists u; split=> //; apply: h2; rewrite k1.
move: e2; rewrite /noninteracting; case: (in_G0 i) => [[[h rows]|]|] // acc.
have n1 := row_count f0 s0 acc; have [a b c d] := C62_order n1 acc.
by exists h, rows; split=> //; rewrite a b.
Qed.
Print Assumptions C86_checks.

(* Then the Green function is defined, without any access out of range, for all operators on
   existing sites and spins at times of [0, beta), and at the times of the grid it has the
   values of the file. *)
Theorem C86_green :
  forall (F : numFieldType) (val : cnum -> F) (ofint : int -> cnum) (c0 : cnum) (maxel w64 w32 fuel : nat) (cplx : bool)
         (Dec : Type) (parse : Dec -> rat_eqType) (ani junk : F) (x0 : sop rat_eqType) (i : input F Dec) (st : started F),
    start val ofint c0 maxel w64 w32 fuel cplx parse ani junk x0 i = Ok st -> 0 < in_beta i ->
    forall f s1 s2, (f < in_spins i)%N -> (s1 < in_sites i)%N -> (s2 < in_sites i)%N ->
    (forall t1 t2 (k1 k2 : int), 0 <= t1 < in_beta i -> 0 <= t2 < in_beta i ->
       exists v, green_ops 1 (st_green st) (Gop f s1 t1 k1) (Gop f s2 t2 k2) = Ok v) /\
    exists h rows, in_G0 i = Some (Some (h, rows)) /\
      forall n (k1 k2 : int), (0 < n < (h_tau h).-1)%N ->
        let r := nth row0 rows (line (in_sites i) (h_tau h) f s1 s2 n) in
        green_ops 1 (st_green st) (Gop f s1 (in_beta i * n%:R / ((h_tau h)%:R - 1)) k1) (Gop f s2 0 k2) =
        Ok (cmk (r_re r) (if cplx then r_im r else 0)).
Proof.
move=> F val ofint c0 maxel w64 w32 fuel cplx Dec parse ani junk x0 i st /startI[vs [e1 e2 e3 _ _]] b0 f s1 s2 lf l1 l2.
move: e2; rewrite /noninteracting; case: (in_G0 i) => [[[h rows]|]|] // acc.
have n1 := row_count (leq_ltn_trans (leq0n _) lf) (leq_ltn_trans (leq0n _) l1) acc.
have [table [_ _ _ eg _]] := accepted acc.
have gd t1 t2 k1 k2 : 0 <= t1 < in_beta i -> 0 <= t2 < in_beta i -> _ :=
  fun a b => @lookup_in cnum (in_beta i) (h_tau h) (in_spins i) (in_sites i) table 0 b0 n1 f s1 s2 t1 t2 k1 k2 lf l1 l2 a b.
split=> [t1 t2 k1 k2 a b|].
  by rewrite eg; have [v [_ e]] := gd t1 t2 k1 k2 a b; eexists; exact: e.
exists h, rows; split; first by [].
move=> n k1 k2 /andP[n0 nl]; cbv zeta; set r := nth row0 rows _.
have [re [im [ip _ _ va]]] := C62_table n1 b0 acc lf l1 l2.
have ln : (n < h_tau h)%N by move: nl n1; clear; lia.
have [vr vi] := va n ln; rewrite -/r in vr vi.
have d0 : 0 < (h_tau h)%:R - 1 :> rat by rewrite subr_gt0 ltr1n.
set tau := in_beta i * n%:R / ((h_tau h)%:R - 1) in vr vi *.
have t0 : 0 < tau by rewrite divr_gt0 // mulr_gt0 // ltr0n.
have tb : tau < in_beta i.
  rewrite ltr_pdivr_mulr // ltr_pmul2l // ltr_subr_addr -(natrD _ n 1) ltr_nat; move: nl; clear; lia.
have := gd tau 0 k1 k2; rewrite (ltW t0) tb lexx b0 => /(_ isT isT)[v [+ +]]; rewrite -eg.
rewrite gt_eqF // t0 subr0 ip ?(ltW t0) ?(ltW tb) //= => -[<-] ->.
by rewrite vr vi.
Qed.
Print Assumptions C86_green.

(* Without a configuration the program starts with no vertices and sign 1, in a state to which
   everything proved of the walker applies. *)
Theorem C86_walker :
  forall (F : numFieldType) (val : cnum -> F) (ofint : int -> cnum) (c0 : cnum) (maxel w64 w32 fuel : nat) (cplx : bool)
         (Dec : Type) (parse : Dec -> rat_eqType) (ani junk : F) (x0 : sop rat_eqType) (i : input F Dec) (st : started F)
         (tm0 : rat_eqType) (jm : fmat F),
    start val ofint c0 maxel w64 w32 fuel cplx parse ani junk x0 i = Ok st -> in_config i = None ->
    let s := st_walker st in
    [/\ su_v s = [::], su_sign s = 1, ~~ su_trying s &
        reach ani (lookup val fuel (st_green st)) [seq d.1 | d <- st_U st] x0 (in_spins i) tm0 jm s].
Proof.
move=> F val ofint c0 maxel w64 w32 fuel cplx Dec parse ani junk x0 i st tm0 jm /startI[vs [_ _ _ + e]] nc; rewrite /initial_vertices nc => -[ev]; move: e; rewrite -ev /= => -[<-].
by split=> //; exact: R_new.
Qed.
Print Assumptions C86_walker.

(* a configuration file: the number of vertices, and for each a number that is not used, the
   type, the auxiliary-field state and the time *)
Definition config_text (Dec : Type) (rows : seq (nat * nat * nat * Dec)) : seq (ctok Dec) :=
  CInt Dec (size rows) :: flatten [seq [:: CInt Dec r.1.1.1; CInt Dec r.1.1.2; CInt Dec r.1.2; CDec r.2] | r <- rows].

(* With a configuration file the program starts with exactly its vertices, in its order, all of
   existing types and states; if the types are usable and the weight is not zero, the sign is
   that of the weight and the state is one to which everything proved of the walker applies. *)
Theorem C86_resumed :
  forall (F : numFieldType) (val : cnum -> F) (ofint : int -> cnum) (c0 : cnum) (maxel w64 w32 fuel : nat) (cplx : bool)
         (Dec : Type) (parse : Dec -> rat_eqType) (ani junk : F) (x0 : sop rat_eqType) (i : input F Dec) (st : started F)
         (tm0 : rat_eqType) (jm : fmat F) (rows : seq (nat * nat * nat * Dec)),
    start val ofint c0 maxel w64 w32 fuel cplx parse ani junk x0 i = Ok st -> in_config i = Some (config_text rows) ->
    let s := st_walker st in let U := [seq d.1 | d <- st_U st] in let G0 := lookup val fuel (st_green st) in
    [/\ [seq (v_type v, v_af v, v_time v) | v <- su_v s] = [seq (r.1.1.2, r.1.2, parse r.2) | r <- rows],
        all (fun v => ~~ v_non v) (su_v s), all (sp_vertex_ok U) (su_v s), ~~ su_trying s &
        let w := weight G0 U x0 (in_spins i) (su_v s) in
        sp_types_ok U ani (in_spins i) -> w != 0 ->
        su_sign s = w / `|w| /\ reach ani G0 U x0 (in_spins i) tm0 jm s].
Proof.
move=> F val ofint c0 maxel w64 w32 fuel cplx Dec parse ani junk x0 i st tm0 jm rows /startI[vs [_ _ _ + e]] hc s U G0.
move=> ev; have [ty it] := config_types ev.
have evs : vs = [seq (r.1.1.2, r.1.2, parse r.2, false, 0%N) | r <- rows].
  move: ev; rewrite /initial_vertices hc /load_config /=; case: ifP => [/eqP/size0nil -> [<-] //|_].
  have h rs acc : load_rows parse U (size rs) (flatten [seq [:: CInt Dec r.1.1.1; CInt Dec r.1.1.2; CInt Dec r.1.2; CDec r.2] | r <- rs]) acc = Ok vs ->
      vs = acc ++ [seq (r.1.1.2, r.1.2, parse r.2, false, 0%N) | r <- rs].
    elim: rs acc => [|r rs IH] acc /=; first by case=> ->; rewrite cats0.
    case: ifP => // _; rewrite C39_push_back /= => /IH ->.
    by rewrite cat_rcons.
  by move/h.
have afok : all (sp_vertex_ok U) vs.
  move: e; rewrite /sub_from; case: ifP => [/eqP/size0nil -> //|_]; case: ifP => // _; case: ifP => // /negbFE af _.
  apply/allP => v vin; rewrite /sp_vertex_ok (allP af v vin) andbT size_map.
  exact: (allP ty v vin).
have svd : map (@vdata rat_eqType) (su_v s) = map (@vdata rat_eqType) vs /\ ~~ su_trying s.
  rewrite /s; move: e; rewrite /sub_from; case: ifP => [/eqP/size0nil -> [] <- //|_]; case: ifP => // _; case: ifP => // _.
  case: (recompute_flavors _ _ _ _) => //= -[[As sd] fs] [<-] /=; split=> //.
  elim: vs (1%N) {ev ty it evs afok} => [|v vs IH] k //=; by rewrite IH; case: v => -[[[a b] c] d] u.
have [{}svd ntr] := svd.
have on (p : pred (vertex rat_eqType)) (q : nat * nat * rat * bool -> bool) : (forall v, p v = q (vdata v)) -> all p (su_v s) = all p vs.
  move=> pq; rewrite (eq_all pq) [RHS](eq_all pq) -(all_map (@vdata rat_eqType) q) svd all_map //.
split=> //.
- have h (ws : seq (vertex rat_eqType)) : [seq (v_type v, v_af v, v_time v) | v <- ws] = map fst (map (@vdata rat_eqType) ws).
    by rewrite -map_comp.
  by rewrite h svd -h evs -map_comp; exact: eq_map.
- by rewrite (on _ (fun x => ~~ x.2)).
- by rewrite (on _ (fun x => (x.1.1.1 < size U)%N && (x.2 || (x.1.1.2 < vd_naf (nth (vdef0 F) U x.1.1.1))%N))).
move=> w tok wn.
have ew : w = weight G0 U x0 (in_spins i) vs by exact: (wt_data _ _ _ _ svd).
rewrite ew in wn *.
have [s' e' [re _ _ sg]] := C58_construct tm0 jm junk tok afok it wn.
by move: e; rewrite e' => -[es]; rewrite -sg /s -es.
Qed.
Print Assumptions C86_resumed.

(* With model.U, not zero, and one or two spins, a positive period and a complete, ordered and
   Hermitian table for the given beta, sites and spins, the program starts, with one usable term
   per site (per pair of sites for one spin). *)
Theorem C86_onsite :
  forall (F : numFieldType) (val : cnum -> F) (ofint : int -> cnum) (c0 : cnum) (maxel w64 w32 fuel : nat) (cplx : bool)
         (Dec : Type) (parse : Dec -> rat_eqType) (ani junk : F) (x0 : sop rat_eqType) (i : input F Dec) (u : F) (h : header) (rows : seq row),
    in_U i = Some u -> in_Ufile i = None -> u != 0 -> in_spins i = 1%N \/ in_spins i = 2%N -> 0 < in_period i -> in_config i = None ->
    in_G0 i = Some (Some (h, rows)) -> h_flavor h = in_spins i -> h_site h = in_sites i ->
    (1 < h_tau h)%N -> 0 < in_beta i -> `|h_beta h - in_beta i| <= tolerance ->
    ordered (in_spins i) (in_sites i) (h_tau h) rows ->
    (forall f s1 s2 t, (f < in_spins i)%N -> (s1 < in_sites i)%N -> (s2 < in_sites i)%N -> (t < h_tau h)%N ->
       let r := nth row0 rows (line (in_sites i) (h_tau h) f s1 s2 t) in
       let r' := nth row0 rows (line (in_sites i) (h_tau h) f s2 s1 t) in
       r_re r = r_re r' /\ (cplx -> r_im r = - r_im r')) ->
    ani != 1 + 1 / 100%:R -> ani != - (1 / 100%:R) ->
    exists st, [/\ start val ofint c0 maxel w64 w32 fuel cplx parse ani junk x0 i = Ok st,
      size (st_U st) = (if in_spins i == 1%N then in_sites i %/ 2 else in_sites i)%N,
      all (fun d => vd_U d.1 == u) (st_U st) & sp_types_ok [seq d.1 | d <- st_U st] ani (in_spins i)].
Proof.
move=> F val ofint c0 maxel w64 w32 fuel cplx Dec parse ani junk x0 i u h rows hU hf u0 nf hp hc hG e1 e2 n1 b0 hb od he a1 a2.
rewrite -e1 -e2 in od he; have [g eg] := @C62_accepts cplx h rows (in_beta i) n1 b0 hb od he.
have nfb : (in_spins i == 1%N) || (in_spins i == 2%N) by case: nf => ->.
have [vl [h1 h2 h3 h4]] := @onsite_ok F (in_sites i) (in_spins i) u (delta0 F) nfb.
have eI : interaction val ofint c0 maxel w64 w32 i = Ok vl by rewrite /interaction hU hf.
have eN : noninteracting cplx i = Ok g by rewrite /noninteracting hG -e1 -e2.
exists (Started vl g (sub_new rat_eqType (in_spins i) junk)); split=> //.
- rewrite /start eI /= eN /= leNgt hp /= /initial_vertices hc //=.
- by apply/(all_nthP (vdef0 F, 0%N)) => k lk; have [_ _ _ -> _] := h4 k lk.
rewrite /sp_types_ok all_map; apply/(all_nthP (vdef0 F, 0%N)) => k lk /=.
have [_ _ _ hi] := interactionI eI; have [i1 i2 i3 i4] := hi k lk.
have [[er en] _ _ eu al] := h4 k lk.
have dp : 0 < delta0 F by rewrite /delta0 divr_gt0 ?ltr01 // ltr0n.
have d0 : delta0 F != 0 by rewrite gt_eqF.
rewrite /sp_type_ok er en i2 er i1 er i4 eu u0 !eqxx /= !al //=.
have d1 : 1 + delta0 F != 0.
  by rewrite gt_eqF // addr_gt0 // ltr01.
have d2 : 1 + delta0 F != 1 by rewrite -subr_eq0 addrAC subrr add0r.
have d3 : - delta0 F != 1.
  by rewrite lt_eqF // (@lt_trans _ _ 0) ?ltr01 // oppr_lt0.
by rewrite oppr_eq0 d0 d1 d2 d3 /= ![_ == ani]eq_sym a1 a2.
Qed.
Print Assumptions C86_onsite.

(* After the start, every measurement of a walker of the program, however it was reached,
   succeeds: no exception and no access out of range. *)
Theorem C86_measured :
  forall (C : numClosedFieldType) (val : cnum -> C) (ofint : int -> cnum) (c0 : cnum) (maxel w64 w32 fuel : nat) (cplx : bool)
         (Dec : Type) (parse : Dec -> rat_eqType) (ani junk : C) (x0 : sop rat_eqType) (i : input C Dec) (st : started C)
         (tm0 : rat_eqType) (jm : fmat C) (s : sub C rat_eqType) (g0 : rat -> nat -> nat -> nat -> C) (n_bin : nat) (shifts : seq rat) (tau : rat),
    start val ofint c0 maxel w64 w32 fuel cplx parse ani junk x0 i = Ok st ->
    let U := [seq d.1 | d <- st_U st] in let G0 := lookup val fuel (st_green st) in
    sp_types_ok U ani (in_spins i) -> reach ani G0 U x0 (in_spins i) tm0 jm s -> ~~ su_trying s ->
    0 < in_beta i -> (0 < n_bin)%N -> is_int32 n_bin ->
    all (fun v => 0 <= v_time v < in_beta i) (su_v s) -> all (fun t => 0 <= t < in_beta i) shifts ->
    exists o, measure_observables cplx ani U x0 g0 (in_beta i) (in_sites i) n_bin (in_spins i) shifts tau s = Ok o.
Proof.
move=> C val ofint c0 maxel w64 w32 fuel cplx Dec parse ani junk x0 i st tm0 jm s g0 n_bin shifts tau /startI[vs [e1 _ _ _ _]] U G0 tok re tr b0 n0 n31 ti hs.
have [o e _] := @C73_measurement C cplx ani G0 U x0 (in_spins i) tm0 jm s g0 (in_beta i) (in_sites i) n_bin shifts tau tok (sites_started e1) re tr b0 n0 n31 ti hs.
by exists o.
Qed.
Print Assumptions C86_measured.

(* Neither or both sources of the interaction, or a file of the interaction that cannot be
   opened: the program ends with an exception. *)
Theorem C86_refuses :
  forall (F : numFieldType) (val : cnum -> F) (ofint : int -> cnum) (c0 : cnum) (maxel w64 w32 fuel : nat) (cplx : bool)
         (Dec : Type) (parse : Dec -> rat_eqType) (ani junk : F) (x0 : sop rat_eqType) (i : input F Dec),
    [\/ in_U i = None /\ in_Ufile i = None, in_U i <> None /\ in_Ufile i <> None | in_U i = None /\ in_Ufile i = Some None] ->
    start val ofint c0 maxel w64 w32 fuel cplx parse ani junk x0 i = Throw.
Proof.
move=> F val ofint c0 maxel w64 w32 fuel cplx Dec parse ani junk x0 i h; rewrite /start /interaction.
by case: h => -[]; case: (in_U i) => [u|]; case: (in_Ufile i) => [[f|]|].
Qed.
Print Assumptions C86_refuses.

(* ------------------------------------------------------------------ what is not checked *)

(* one spin, one site, two times, the same value at both *)
Definition flat (y : rat) : seq row := [:: Row 0 0 0 0 y 0; Row 0 0 0 1 y 0].

Lemma flat_negative y : exists g, read_itime_data false (Header 1 1 2 (-1)) (flat y) (-1) 1 1 = Ok g.
Proof.
pose taus : seq rat := [seq grid_point (-1) 2 t | t <- iota 0 2].
have tE : taus = [:: 0; -1] by rewrite /taus /grid_point /=; congr [:: _; _]; apply/eqP; vm_compute.
have sp ys : size ys = 2%N -> exists s, set_points (spline_new [realFieldType of rat]) taus ys true = Ok s.
  by move=> sy; rewrite /set_points size_map size_iota sy ltnn /=; eexists.
have [|||table rd] := @read_pairsT false 2 taus (triples 1 1) None (flat y) (fun _ _ _ _ _ => 0).
- move=> data sd; rewrite /pair_coeff.
  have [|s1 ->] := sp [seq d.1 | d <- data]; first by rewrite size_map.
  have [|s2 ->] := sp [seq d.2 | d <- data]; first by rewrite size_map.
  by eexists.
- by [].
- by case=> [|j] // [|[|k]].
have np : forall r, None = Some r -> r_tau r <> 0 by [].
have [_ _ tP] := read_pairsP (isT : 1 < 2)%N (triples_uniq 1 1) np rd.
have [|_] := tP 0%N 0%N 0%N; first by [].
rewrite /pair_coeff tE => e; have [sre _ {}e] := obI2 e; have [sim es {}e] := obI2 e; case: e => eT.
have z p : (if get_coeff sim 0 p is Ok v then v else 0) = 0.
  have : (fun o => if o is Ok s then all (fun p => (if get_coeff s 0 p is Ok v then v else 0) == 0) [:: 0; 1; 2; 3; 4]%N else false)
    (set_points (spline_new [realFieldType of rat]) [:: 0; -1] [:: 0; 0] true) by vm_compute.
  rewrite es /= => /and5P[/eqP h0 /eqP h1 /eqP h2 /eqP h3 _].
  by case: p => [|[|[|[|p]]]] //; rewrite /get_coeff; case: ifP.
exists (green_grid (-1) 2 1 1 table); apply: (@read_itime_dataT false (Header 1 1 2 (-1)) (flat y) (-1) table).
- by rewrite subrr normr0 /tolerance div1r invr_ge0; exact: exprn_ge0.
- exact: rd.
apply: check_pointsT => f s1 s2 tau /allpairsP[[[[f' s1'] s2'] tau'] [/= hin ht [-> -> -> ->]]] {f s1 s2 tau}.
move: f' s1' s2' tau' hin ht => f s1 s2 tau; rewrite mem_triples => /and3P[].
rewrite !ltnS !leqn0 => /eqP-> /eqP-> /eqP-> {f s1 s2} ht.
have [v [ev v0]] : exists v, interpolate (green_grid (-1) 2 1 1 table) 0 0 0 tau = Ok v /\ cim v = 0.
  have ti : (let idx0 := truncq (tau * (1 / (-1 / (2%:R - 1)))) in (idx0 == 0) || (idx0 == 1)).
    by move: ht; rewrite !in_cons in_nil orbF => /or3P[] /eqP ->; vm_compute.
  rewrite /interpolate /=; move: ti; cbv zeta; move: (truncq _) => idx hi.
  have -> : (if idx == Posz 2 - 1 then Posz 2 - Posz 2 else idx) = 0 :> int.
    by case/orP: hi => /eqP->.
  rewrite /=; eexists; split; first reflexivity.
  rewrite -eT /cim /=.
  by rewrite !z !(mulr0, addr0, scaler0).
exists v, v; split; [exact: ev|exact: ev|apply: not_conjT => //; by rewrite v0 oppr0].
Qed.

(* an interaction of one term of one density, with U = 1 and one state, and a table *)
Definition one_term (a : rat) : term cnum := Term 0 [:: 0%N] [:: 0; 0]%N 1 (cmk 1 0) [:: [:: cmk a 0]].
Definition small_input (beta y a : rat) (config : option (seq (ctok rat))) : input [numFieldType of rat] rat :=
  Input 1 1 beta 1 None (Some (Some (file_text [:: one_term a]))) (Some (Some (Header 1 1 2 beta, flat y))) config.

Lemma small_interaction (beta y a : rat) config (maxel w64 w32 : nat) : (9 < w64)%N -> (9 < w32)%N -> (9 < maxel)%N ->
  exists d, [/\ interaction (F := [numFieldType of rat]) cre (fun z => cmk z%:~R 0) 0 maxel w64 w32 (small_input beta y a config) = Ok [:: (d, 0%N)],
    vd_rank d = 1%N /\ vd_naf d = 1%N, vd_flavors d = [:: 0%N], vd_sites d = [:: 0; 0]%N & vd_U d = 1 /\ vd_alpha d 0 0 = a].
Proof.
move=> h1 h2 h3.
have [|||vl [e1 e2 e3 e4]] := @C38_reads_what_is_written [numFieldType of rat] cnum cre (fun z => cmk z%:~R 0) 0 maxel w64 w32 1 1 [:: one_term a] [::].
- by rewrite /=; lia.
- by rewrite /wf_term /t_rank /=; lia.
- by [].
rewrite cats0 in e1.
have -> : interaction (F := [numFieldType of rat]) cre (fun z => cmk z%:~R 0) 0 maxel w64 w32 (small_input beta y a config) = Ok vl by exact: e1.
case: vl e2 e3 e4 {e1} => [|[d id] []] //= _ [->] /(_ 0%N (one_term a) isT) /= [[er en] ef es eu al].
by exists d; split=> //; rewrite al // er.
Qed.

Lemma small_table (y : rat) : exists g, read_itime_data false (Header 1 1 2 1) (flat y) 1 1 1 = Ok g.
Proof.
have [|||||g eg] := @C62_accepts false (Header 1 1 2 1) (flat y) 1.
- by [].
- by [].
- rewrite subrr normr0 /tolerance div1r invr_ge0; exact: exprn_ge0.
- by split; [|move=> [|f] // [|s1] // [|s2] // [|[|t]]].
- by move=> [|f] // [|s1] // [|s2].
by exists g; exact: eg.
Qed.

Lemma small_start (beta y a : rat) config (maxel w64 w32 fuel : nat) (ani : rat) (x0 : sop rat_eqType) vl g vs s :
  interaction (F := [numFieldType of rat]) cre (fun z => cmk z%:~R 0) 0 maxel w64 w32 (small_input beta y a config) = Ok vl ->
  read_itime_data false (Header 1 1 2 beta) (flat y) beta 1 1 = Ok g ->
  initial_vertices id (small_input beta y a config) vl = Ok vs ->
  sub_from ani (lookup cre fuel g) [seq d.1 | d <- vl] x0 1 0 vs = Ok s ->
  start (F := [numFieldType of rat]) cre (fun z => cmk z%:~R 0) 0 maxel w64 w32 fuel false id ani 0 x0 (small_input beta y a config) =
  Ok (Started vl g s).
Proof.
move=> e1 e2 e3 e4; rewrite /start e1 obindE.
have -> : noninteracting false (small_input beta y a config) = Ok g by exact: e2.
have -> : (in_period (small_input beta y a config) <= 0) = false by [].
by rewrite obindE e3 obindE e4.
Qed.

(* A negative beta is accepted, if the table has the same. *)
Theorem C86_beta_refuted :
  forall (maxel w64 w32 fuel : nat) (ani : rat) (x0 : sop rat_eqType), (9 < w64)%N -> (9 < w32)%N -> (9 < maxel)%N ->
  exists (i : input [numFieldType of rat] rat) (st : started [numFieldType of rat]),
    in_beta i < 0 /\ start (F := [numFieldType of rat]) cre (fun z => cmk z%:~R 0) 0 maxel w64 w32 fuel false id ani 0 x0 i = Ok st.
Proof.
move=> maxel w64 w32 fuel ani x0 h1 h2 h3.
have [d [eI _ _ _ _]] := small_interaction (-1) 2%:R 3%:R None h1 h2 h3.
have [g eg] := flat_negative 2%:R.
exists (small_input (-1) 2%:R 3%:R None), (Started [:: (d, 0%N)] g (sub_new rat_eqType 1 0)); split; first exact: ltrN10.
refine (@small_start (-1) 2%:R 3%:R None maxel w64 w32 fuel ani x0 _ g [::] _ eI eg _ _); reflexivity.
Qed.
Print Assumptions C86_beta_refuted.

(* A term with alpha = 1 is accepted, although the number alpha / (alpha - 1) by which
   the program represents it does not exist. *)
Theorem C86_alpha_refuted :
  forall (maxel w64 w32 fuel : nat) (ani : rat) (x0 : sop rat_eqType), (9 < w64)%N -> (9 < w32)%N -> (9 < maxel)%N ->
  exists (i : input [numFieldType of rat] rat) (st : started [numFieldType of rat]),
    [/\ start (F := [numFieldType of rat]) cre (fun z => cmk z%:~R 0) 0 maxel w64 w32 fuel false id ani 0 x0 i = Ok st,
        size (st_U st) = 1%N, vd_alpha (nth (vdef0 _, 0%N) (st_U st) 0).1 0 0 = 1 &
        ~~ sp_types_ok [seq d.1 | d <- st_U st] ani (in_spins i)].
Proof.
move=> maxel w64 w32 fuel ani x0 h1 h2 h3.
have [d [eI [er en] ef es [eu ea]]] := small_interaction 1 2%:R 1 None h1 h2 h3.
have [g eg] := small_table 2%:R.
exists (small_input 1 2%:R 1 None), (Started [:: (d, 0%N)] g (sub_new rat_eqType 1 0)); split.
- refine (@small_start 1 2%:R 1 None maxel w64 w32 fuel ani x0 _ g [::] _ eI eg _ _); reflexivity.
- by [].
- exact: ea.
by rewrite /sp_types_ok /= /sp_type_ok er en /= ea eqxx !andbF.
Qed.
Print Assumptions C86_alpha_refuted.

Definition small_config : option (seq (ctok rat)) := Some (config_text [:: (0%N, 0%N, 0%N, 1 / 2%:R : rat)]).
Lemma small_resumed (al0 : rat) (maxel w64 w32 fuel : nat) (ani : rat) (x0 : sop rat_eqType) : (9 < w64)%N -> (9 < w32)%N -> (9 < maxel)%N ->
  ani != al0 -> al0 != 0 -> al0 != 1 -> exists st : started [numFieldType of rat],
    [/\ start (F := [numFieldType of rat]) cre (fun z => cmk z%:~R 0) 0 maxel w64 w32 fuel.+1 false id ani 0 x0 (small_input 1 2%:R al0 small_config) = Ok st,
        [seq (v_type v, v_af v, v_time v) | v <- su_v (st_walker st)] = [:: (0%N, 0%N, 1 / 2%:R)],
        sp_types_ok [seq d.1 | d <- st_U st] ani 1 &
        weight (lookup cre fuel.+1 (st_green st)) [seq d.1 | d <- st_U st] x0 1 (su_v (st_walker st)) = 2%:R + al0].
Proof.
move=> h1 h2 h3 ha z0 z1.
have [d [eI [er en] ef es [eu ea]]] := small_interaction 1 2%:R al0 small_config h1 h2 h3.
have [g eg] := small_table 2%:R.
pose t : rat_eqType := 1 / 2%:R.
have gE : lookup (F := [numFieldType of rat]) cre fuel.+1 g (0%N, 0%N, t, 0) (0%N, 0%N, t, 0) = - 2%:R.
  have [table [_ _ _ egg _]] := accepted eg.
  have [re [im [ip _ _ va]]] := C62_table (isT : 1 < h_tau (Header 1 1 2 1))%N (ltr01 : 0 < (1 : rat)) eg (isT : 0 < 1)%N (isT : 0 < 1)%N (isT : 0 < 1)%N.
  have [v1 _] := va 1%N isT; move: v1; have -> : 1 * 1%:R / ((h_tau (Header 1 1 2 1))%:R - 1) = 1 :> rat by [].
  move=> v1; rewrite /lookup /green_ops.
  have -> : g_time (Gop 0 0 t 0) - g_time (Gop 0 0 t 0) == 0 by [].
  have -> : (g_small (Gop 0 0 t 0) < g_small (Gop 0 0 t 0)) = false by [].
  have -> : gr_beta g = 1 by rewrite egg.
  have i1 : interpolate g 0 0 0 1 = Ok (cmk 2%:R (im 1)).
    rewrite ip; last by rewrite ler01 lexx.
    by congr (Ok (cmk _ _)); exact: v1.
  by rewrite [interpolate _ _ _ _ _]i1.
have tok : sp_types_ok [:: d] ani 1.
  have ha' : (al0 == ani) = false by rewrite eq_sym (negbTE ha).
  by rewrite /sp_types_ok /= /sp_type_ok er en ef es eu /= ea ha' z0 z1.

have [s [eS eV]] : exists s, sub_from ani (lookup cre fuel.+1 g) [:: d] x0 1 0 [:: (0%N, 0%N, t, false, 0%N)] = Ok s /\
    [seq vdata v | v <- su_v s] = [:: (0%N, 0%N, t, false)].
  have ha' : (al0 == ani) = false by rewrite eq_sym (negbTE ha).
  case: d er en ef es eu ea {eI tok} => rk fl si naf u al /= -> -> -> -> _ ea.
  rewrite /sub_from /= /recompute_flavors /= /ia_recompute /= ea ha' /=.
  by eexists; split; first reflexivity.
exists (Started [:: (d, 0%N)] g s); split.
- refine (@small_start 1 2%:R al0 small_config maxel w64 w32 fuel.+1 ani x0 _ g _ _ eI eg _ eS); reflexivity.
- have h (ws : seq (vertex rat_eqType)) : [seq (v_type v, v_af v, v_time v) | v <- ws] = map fst (map (@vdata rat_eqType) ws).
    by rewrite -map_comp.
  by rewrite h /= eV.
- exact: tok.
have -> : weight (lookup cre fuel.+1 g) [:: d] x0 1 (su_v s) = weight (lookup cre fuel.+1 g) [:: d] x0 1 [:: (0%N, 0%N, t, false, 0%N)].
  by apply: wt_data; rewrite eV.
rewrite /weight big_ord_recl big_ord0 mulr1.
have eo : sp_ops [:: d] 0 [:: (0%N, 0%N, t, false, 0%N)] = [:: ((0%N, 0%N, t, 0), (0%N, 0%N, t, 0), al0)].
  by case: d er en ef es eu ea {eI tok eS} => rk fl si naf u al /= -> -> -> -> _ ea; rewrite /sp_ops /= /sp_term /= ea.
rewrite [X in det_of (size X)]eo [X in sp_mat _ _ X]eo /det_of det_mx11 mxE /sp_mat /=.
by rewrite gE big_cons big_nil /sp_def /= eu; ring.
Qed.

(* A configuration of weight zero is accepted: its sign does not exist. *)
Theorem C86_weight_refuted :
  forall (maxel w64 w32 fuel : nat) (ani : rat) (x0 : sop rat_eqType), (9 < w64)%N -> (9 < w32)%N -> (9 < maxel)%N ->
  ani != - 2%:R ->
  exists (i : input [numFieldType of rat] rat) (st : started [numFieldType of rat]),
    [/\ start (F := [numFieldType of rat]) cre (fun z => cmk z%:~R 0) 0 maxel w64 w32 fuel.+1 false id ani 0 x0 i = Ok st,
        [seq (v_type v, v_af v, v_time v) | v <- su_v (st_walker st)] = [:: (0%N, 0%N, 1 / 2%:R)],
        sp_types_ok [seq d.1 | d <- st_U st] ani (in_spins i) &
        weight (lookup cre fuel.+1 (st_green st)) [seq d.1 | d <- st_U st] x0 (in_spins i) (su_v (st_walker st)) = 0].
Proof.
move=> maxel w64 w32 fuel ani x0 h1 h2 h3 ha.
have [||st [e1 e2 e3 e4]] := small_resumed fuel x0 h1 h2 h3 ha; [by []|by []|].
exists (small_input 1 2%:R (- 2%:R) small_config), st; split; [exact e1|exact e2|exact e3|rewrite e4; exact: addrN].
Qed.
Print Assumptions C86_weight_refuted.

(* with alpha = 3 the weight of the vertex is 5 and the walker starts with sign 1 *)
Example C86_resumed_case :
  forall (maxel w64 w32 fuel : nat) (x0 : sop rat_eqType), (9 < w64)%N -> (9 < w32)%N -> (9 < maxel)%N ->
  exists st : started [numFieldType of rat],
    [/\ start (F := [numFieldType of rat]) cre (fun z => cmk z%:~R 0) 0 maxel w64 w32 fuel.+1 false id 7%:R 0 x0 (small_input 1 2%:R 3%:R small_config) = Ok st,
        weight (lookup cre fuel.+1 (st_green st)) [seq d.1 | d <- st_U st] x0 1 (su_v (st_walker st)) = 5%:R &
        su_sign (st_walker st) = 1].
Proof.
move=> maxel w64 w32 fuel x0 h1 h2 h3.
have [|||st [e1 e2 e3 e4]] := @small_resumed 3%:R maxel w64 w32 fuel 7%:R x0 h1 h2 h3; [by []|by []|by []|].
have w5 : 2%:R + 3%:R = 5%:R :> rat by [].
exists st; split; [exact e1|by rewrite e4|].
have [_ _ _ _ h] := C86_resumed (0 : rat_eqType) (fun _ _ => 0) e1 (erefl _).
have [|-> _] := h e3; first by rewrite e4 w5.
by rewrite e4 w5.
Qed.

(* a start as the theorems above ask for: a table with the value 2, alpha = 3 *)
Example C86_case :
  forall (maxel w64 w32 fuel : nat) (x0 : sop rat_eqType), (9 < w64)%N -> (9 < w32)%N -> (9 < maxel)%N ->
  exists (i : input [numFieldType of rat] rat) (st : started [numFieldType of rat]),
    [/\ start (F := [numFieldType of rat]) cre (fun z => cmk z%:~R 0) 0 maxel w64 w32 fuel false id 7%:R 0 x0 i = Ok st,
        (0 < in_sites i)%N && (0 < in_spins i)%N, 0 < in_beta i /\ in_config i = None &
        sp_types_ok [seq d.1 | d <- st_U st] 7%:R (in_spins i) /\
        exists v, green_ops 1 (st_green st) (Gop 0 0 (1 / 4%:R) 0) (Gop 0 0 (3%:R / 4%:R) 0) = Ok v].
Proof.
move=> maxel w64 w32 fuel x0 h1 h2 h3.
have [d [eI [er en] ef es [eu ea]]] := small_interaction 1 2%:R 3%:R None h1 h2 h3.
have [g eg] := small_table 2%:R.
have st : start (F := [numFieldType of rat]) cre (fun z => cmk z%:~R 0) 0 maxel w64 w32 fuel false id 7%:R 0 x0 (small_input 1 2%:R 3%:R None) =
    Ok (Started [:: (d, 0%N)] g (sub_new rat_eqType 1 0)).
  refine (@small_start 1 2%:R 3%:R None maxel w64 w32 fuel 7%:R x0 _ g [::] _ eI eg _ _); reflexivity.
exists (small_input 1 2%:R 3%:R None), (Started [:: (d, 0%N)] g (sub_new rat_eqType 1 0)); split; [exact st|reflexivity|split; reflexivity|split].
  by rewrite /sp_types_ok /= /sp_type_ok er en ef es eu /= ea.
have [h _] := C86_green st (isT : 0 < (1 : rat)) (isT : 0 < 1)%N (isT : 0 < 1)%N (isT : 0 < 1)%N.
by apply: h.
Qed.
