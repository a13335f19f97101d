(* Property theorems: C76 (quantum numbers of the vertices), C77 (selection rule). *)
From mathcomp Require Import all_ssreflect ssralg ssrnum ssrint rat fingroup perm matrix order zify.
From Verif Require Prop_DetMat.
From Verif Require Import Outcome MatSpec GroupModel GroupSpec GroupProofs SubModel SubSpec PairModel PairSpec Prop_Pair
  QnModel QnSpec.

Set Implicit Arguments.
Unset Strict Implicit.
Unset Printing Implicit Defensive.

Import Order.TTheory GRing.Theory Num.Theory.
Local Open Scope ring_scope.

(* ---- proofs ---- *)

Lemma oseq_map_ok (A B : Type) (f : A -> outcome B) (g : A -> B) (P : A -> bool) (l : seq A) :
  all P l -> (forall x, P x -> f x = Ok (g x)) -> oseq [seq f x | x <- l] = Ok [seq g x | x <- l].
Proof. by move=> + h; elim: l => //= x l IH /andP [/h-> /IH ->]. Qed.

Section Proofs.
Variable F : numFieldType.

Lemma foldl_maxn_ge (l : seq nat) x0 : (x0 <= foldl maxn x0 l)%N /\ (forall x, x \in l -> (x <= foldl maxn x0 l)%N).
Proof.
elim: l x0 => [|y l IH] x0 /=; first by split.
case: (IH (maxn x0 y)) => h1 h2; split; first exact: leq_trans (leq_maxl _ _) h1.
move=> x; rewrite inE => /orP [/eqP->|/h2 //]; exact: leq_trans (leq_maxr _ _) h1.
Qed.

Lemma foldl_maxnE (l : seq nat) x0 : foldl maxn x0 l = maxn x0 (\max_(x <- l) x).
Proof. by elim: l x0 => [|y l IH] x0 /=; rewrite ?big_nil ?maxn0 // big_cons IH maxnA. Qed.

Lemma index_inj nd f g f' g' : (g < nd)%N -> (g' < nd)%N ->
  ((nd * f + g)%N == (nd * f' + g')%N) = (f == f') && (g == g').
Proof.
move=> hg hg'; apply/eqP/andP => [e|[/eqP-> /eqP->]] //.
have nd0 : (0 < nd)%N by case: (nd) hg.
have := congr1 (fun x => x %% nd)%N e; rewrite !(mulnC nd) !modnMDl !modn_small // => eg.
move/eqP: e; rewrite eg eqn_add2r eqn_pmul2l // => ->.
Qed.

(* the first m parts *)
Definition net_to (grp : nat -> nat -> nat) (d : vdef F) (m f g : nat) : int :=
  let parts := [seq r <- iota 0 m | nth 0%N (vd_flavors d) r == f] in
  (count (fun r => grp f (sp_cre_site d r) == g) parts)%:Z -
  (count (fun r => grp f (sp_ann_site d r) == g) parts)%:Z.

Lemma net_toS grp d m f g : net_to grp d m.+1 f g = net_to grp d m f g +
  (if nth 0%N (vd_flavors d) m == f then
     (grp f (sp_cre_site d m) == g)%:Z - (grp f (sp_ann_site d m) == g)%:Z else 0).
Proof.
rewrite /net_to -addn1 iotaD !filter_cat !count_cat /= add0n.
case: eqP => _ /=; last by lia.
rewrite !addn0; lia.
Qed.

Variables (nf ns nd : nat) (maps : seq (seq nat)).
Hypothesis maps_nf : size maps = nf.
Hypothesis maps_ns : forall f, (f < nf)%N -> size (nth [::] maps f) = ns.
Hypothesis maps_nd : forall f s, (f < nf)%N -> (s < ns)%N -> (nth 0%N (nth [::] maps f) s < nd)%N.
Let grp f s := nth 0%N (nth [::] maps f) s.

Lemma qn_diff_to (d : vdef F) a m : sp_shape_ok nf ns d -> (m <= vd_rank d)%N ->
  exists q, [/\ foldl (qn_part nd maps d a) (Ok (nseq (nd * nf) 0)) (iota 0 m) = Ok q,
    size q = (nd * nf)%N &
    forall f g, (f < nf)%N -> (g < nd)%N -> nth 0 q (nd * f + g) = net_to grp d m f g].
Proof.
case/and4P => h1 h2 h3 h4; elim: m => [|m IH] hm.
  exists (nseq (nd * nf) 0); split => //; first by rewrite size_nseq.
  by move=> f g _ _; rewrite nth_nseq if_same.
case: (IH (ltnW hm)) => q [eq sq hq] {IH}.
have hmf : (m < size (vd_flavors d))%N by apply: leq_trans hm h1.
have hms : ((2 * m).+1 < size (vd_sites d))%N by apply: leq_trans h2; move: hm; clear; lia.
set f0 := nth 0%N (vd_flavors d) m.
have f0P : (f0 < nf)%N by apply: (allP h3); rewrite mem_nth.
have s1P : (sp_cre_site d m < ns)%N by apply: (allP h4); rewrite mem_nth // ltnW.
have s2P : (sp_ann_site d m < ns)%N by apply: (allP h4); rewrite mem_nth.
have g1P := maps_nd f0P s1P; have g2P := maps_nd f0P s2P.
have bnd g : (g < nd)%N -> (nd * f0 + g < nd * nf)%N.
  move=> hg; apply: (@leq_trans (nd * f0.+1)); first by rewrite mulnS addnC ltn_add2r.
  by rewrite leq_mul2l f0P orbT.
pose PH : int := if sp_cre_site d m == sp_ann_site d m then
        (if `|vd_alpha d a m| < `|vd_alpha d a m - 1| then 1 else -1) else 1.
exists (set_nth 0 (set_nth 0 q (nd * f0 + grp f0 (sp_cre_site d m))
           (nth 0 q (nd * f0 + grp f0 (sp_cre_site d m)) + PH)) (nd * f0 + grp f0 (sp_ann_site d m))
        (nth 0 (set_nth 0 q (nd * f0 + grp f0 (sp_cre_site d m))
           (nth 0 q (nd * f0 + grp f0 (sp_cre_site d m)) + PH)) (nd * f0 + grp f0 (sp_ann_site d m)) - PH)).
have sz1 : size (set_nth 0 q (nd * f0 + grp f0 (sp_cre_site d m))
           (nth 0 q (nd * f0 + grp f0 (sp_cre_site d m)) + PH)) = (nd * nf)%N.
  by rewrite size_set_nth sq; apply/maxn_idPr; apply: bnd.
split.
- rewrite -addn1 iotaD foldl_cat eq /= add0n hmf hms /= -/f0.
  rewrite -/(sp_cre_site d m) -/(sp_ann_site d m) -/PH /group_at maps_nf f0P maps_ns // s1P s2P /=.
  by rewrite /qn_add sq bnd //= sz1 bnd.
- by rewrite size_set_nth sz1; apply/maxn_idPr; apply: bnd.
- move=> f g hf hg; rewrite net_toS -/f0 !nth_set_nth /= nth_set_nth /=.
  rewrite (index_inj _ _ hg g2P) (index_inj _ _ hg g1P) (index_inj _ _ g2P g1P) eqxx /=.
  rewrite [f == f0]eq_sym; case: (eqVneq f0 f) => [<-|_] /=; last by rewrite addr0 hq.
  rewrite -/(grp f0 (sp_ann_site d m)) -/(grp f0 (sp_cre_site d m)) !hq //.
  have : sp_cre_site d m = sp_ann_site d m -> grp f0 (sp_cre_site d m) = grp f0 (sp_ann_site d m) by move=> ->.
  move: (sp_cre_site d m == sp_ann_site d m) (@eqP _ (sp_cre_site d m) (sp_ann_site d m)) @PH {sz1 bnd}.
  move: (grp f0 (sp_cre_site d m)) (grp f0 (sp_ann_site d m)) => g1 g2 b bP PH hb.
  case: b bP @PH => bP PH.
    have e : g1 = g2 by apply: hb; apply/bP.
    rewrite -e eqxx [g == _]eq_sym; case: eqP => [<-|_]; lia.
  rewrite /PH ![g == _]eq_sym; case: (eqVneq g2 g) => [<-|h2'] /=.
    by rewrite [g2 == g1]eq_sym; case: eqP => [->|_]; lia.
  by case: eqP => [->|_]; lia.
Qed.

Lemma qn_diff_ok (d : vdef F) a : sp_shape_ok nf ns d ->
  exists q, [/\ qn_diff nf nd maps d a = Ok q, size q = (nd * nf)%N &
    forall f g, (f < nf)%N -> (g < nd)%N -> nth 0 q (nd * f + g) = sp_net grp d f g].
Proof. by move=> h; apply: qn_diff_to. Qed.

End Proofs.

(* the groups of all flavors *)
Section Groups.
Variables (F : numFieldType) (n : nat) (nz : nat -> nat -> nat -> bool).

Definition table (f : nat) : seq (seq bool) := [seq [seq nz i j f | j <- iota 0 n] | i <- iota 0 n].
Definition groups_of (f : nat) := make_groups n (fun i j => nth false (nth [::] (table f) i) j).

Lemma tableE f i j : (i < n)%N -> (j < n)%N -> nth false (nth [::] (table f) i) j = nz i j f.
Proof.
move=> hi hj; rewrite /table (nth_map 0%N) ?size_iota // (nth_map 0%N) ?size_iota //.
by rewrite !nth_iota.
Qed.

Lemma all_groupsE : all_groups n n nz = Ok [seq groups_of f | f <- iota 0 n].
Proof.
apply: (oseq_map_ok (P := fun f => f < n)%N); first by apply/allP => x; rewrite mem_iota.
move=> f hf; rewrite /flavor_groups /connected_table.
rewrite (oseq_map_ok (g := fun i => [seq nz i j f | j <- iota 0 n]) (P := fun f => f < n)%N) //; first by apply/allP => x; rewrite mem_iota.
move=> i hi; apply: (oseq_map_ok (P := fun f => f < n)%N); first by apply/allP => x; rewrite mem_iota.
by move=> j hj; rewrite /connected_entry /is_zero hi hj hf /= negbK.
Qed.

Lemma groups_part f : partition_of n (groups_of f).1 (groups_of f).2.
Proof. by have := make_groups_partition n (fun i j => nth false (nth [::] (table f) i) j); rewrite -/(groups_of f); case: groups_of. Qed.

Lemma groups_dec f :
  (forall i j, (i < n)%N -> (j < n)%N -> nz i j f = nz j i f) ->
  (forall i j k, (i < n)%N -> (j < n)%N -> (k < n)%N -> nz i j f -> nz j k f -> nz i k f) ->
  decoupled n (fun i j => nz i j f) (groups_of f).2.
Proof.
move=> sy tr i j hi hj c; apply: (@make_groups_decoupled n (fun i j => nth false (nth [::] (table f) i) j)) => //.
- by move=> a b ha hb; rewrite !tableE // sy.
- by move=> a b k ha hb hk; rewrite !tableE //; apply: tr.
- by rewrite tableE.
Qed.

End Groups.

(* ------------------------------------------------------------------ C76 *)

(* With as many sites as flavors, make_quantum_numbers succeeds for all vertex types of the
   model; the groups of every flavor partition the sites, and the quantum number of a type in
   any state has, for flavor f and group g, the number of particles of f created in g minus
   the number annihilated there.  Missing: other numbers of sites, where it is false. *)
Theorem C76_quantum_numbers_partial :
  forall (F : numFieldType) (n : nat) (nz : nat -> nat -> nat -> bool) (U : seq (vdef F)),
    (0 < n)%N -> all (sp_shape_ok n n) U ->
    exists (qns : seq (seq (seq int))) (groups : seq (seq (seq nat))) (maps : seq (seq nat)),
      let nd := \max_(gr <- groups) size gr in
      let grp f s := nth 0%N (nth [::] maps f) s in
      make_quantum_numbers n n nz U = Ok (qns, groups, maps) /\
      [/\ size groups = n /\ size maps = n,
        forall f, (f < n)%N -> partition_of n (nth [::] groups f) (nth [::] maps f),
        forall f, (f < n)%N ->
          (forall i j, (i < n)%N -> (j < n)%N -> nz i j f = nz j i f) ->
          (forall i j k, (i < n)%N -> (j < n)%N -> (k < n)%N -> nz i j f -> nz j k f -> nz i k f) ->
          decoupled n (fun i j => nz i j f) (nth [::] maps f),
        size qns = size U &
        forall v, (v < size U)%N -> let d := nth (vdef0 F) U v in
          size (nth [::] qns v) = vd_naf d /\
          forall a, (a < vd_naf d)%N -> let q := nth [::] (nth [::] qns v) a in
            size q = (nd * n)%N /\
            forall f g, (f < n)%N -> (g < nd)%N -> nth 0 q (nd * f + g) = sp_net grp d f g].
Proof.
move=> F n nz U n0 hU.
set gs := [seq groups_of n nz f | f <- iota 0 n].
set maps := [seq g.2 | g <- gs]; set groups := [seq g.1 | g <- gs].
pose nd := foldl maxn 0%N [seq size g.1 | g <- gs].
have ndE : \max_(gr <- groups) size gr = nd by rewrite /nd foldl_maxnE max0n /groups !big_map.
pose okq (o : outcome (seq int)) := if o is Ok q then q else [::].
pose getq (d : vdef F) a := okq (qn_diff n nd maps d a).
have sg : size gs = n by rewrite size_map size_iota.
have gsE f : (f < n)%N -> nth ([::], [::]) gs f = groups_of n nz f.
  by move=> hf; rewrite (nth_map 0%N) ?size_iota // nth_iota.
have grE f : (f < n)%N -> nth [::] groups f = (groups_of n nz f).1.
  by move=> hf; rewrite (nth_map ([::], [::])) ?sg // gsE.
have mpE f : (f < n)%N -> nth [::] maps f = (groups_of n nz f).2.
  by move=> hf; rewrite (nth_map ([::], [::])) ?sg // gsE.
have sm : size maps = n by rewrite size_map.
have smn f : (f < n)%N -> size (nth [::] maps f) = n.
  by move=> hf; rewrite mpE //; case: (groups_part n nz f).
have mlt f s : (f < n)%N -> (s < n)%N -> (nth 0%N (nth [::] maps f) s < nd)%N.
  move=> hf hs; rewrite mpE //; case: (groups_part n nz f) => _ /(_ s hs) h _; apply: leq_trans h _.
  have [_ h] := foldl_maxn_ge [seq size g.1 | g <- gs] 0; apply: h; apply/mapP.
  by exists (groups_of n nz f) => //; apply/mapP; exists f; rewrite // mem_iota.
have key (d : vdef F) a : sp_shape_ok n n d -> [/\ qn_diff n nd maps d a = Ok (getq d a), size (getq d a) = (nd * n)%N &
    forall f g, (f < n)%N -> (g < nd)%N -> nth 0 (getq d a) (nd * f + g) =
      sp_net (fun f s => nth 0%N (nth [::] maps f) s) d f g].
  by move=> hd; have [q [h1 h2 h3]] := qn_diff_ok sm smn mlt a hd; rewrite /getq h1.
exists [seq [seq getq d a | a <- iota 0 (vd_naf d)] | d <- U], groups, maps; rewrite ndE; split.
  rewrite /make_quantum_numbers all_groupsE /= -/gs /n_dim_of.
  have -> : (if gs is [::] then UB else Ok nd) = Ok nd by move: sg n0 => <-; case: (gs).
  rewrite /= -/maps (oseq_map_ok (g := fun d => [seq getq d a | a <- iota 0 (vd_naf d)]) (P := sp_shape_ok n n)) //.
  move=> d hd; apply: (oseq_map_ok (P := fun=> true)); first by apply/allP.
  by move=> a _; case: (key d a hd).
split.
- by rewrite size_map sg sm.
- by move=> f hf; rewrite grE // mpE //; apply: groups_part.
- by move=> f hf; rewrite mpE //; apply: groups_dec.
- by rewrite size_map.
- move=> v hv; rewrite (nth_map (vdef0 F)) //=; split; first by rewrite size_map size_iota.
  move=> a ha; rewrite (nth_map 0%N) ?size_iota // nth_iota // add0n.
  have hd : sp_shape_ok n n (nth (vdef0 F) U v) by move/all_nthP: hU; apply.
  by case: (key _ a hd).
Qed.
Print Assumptions C76_quantum_numbers_partial.

(* Every other number of sites: the Green function is looked up with the site in place of the
   flavor and is read outside its table, for every pattern and every interaction. *)
Lemma sites_undefined :
  forall (F : numFieldType) (nf ns : nat) (nz : nat -> nat -> nat -> bool) (U : seq (vdef F)),
    (0 < nf)%N -> (0 < ns)%N -> nf <> ns -> make_quantum_numbers nf ns nz U = UB.
Proof.
move=> F nf ns nz U f0 s0 ne.
suff h : all_groups nf ns nz = UB by rewrite /make_quantum_numbers h.
have ub (A : Type) (f : nat -> outcome A) m k : (k < m)%N -> f k = UB ->
    (forall i, (i < k)%N -> exists a, f i = Ok a) -> oseq [seq f i | i <- iota 0 m] = UB.
  move=> km fk; rewrite -(subnKC (ltnW km)) iotaD map_cat add0n => hk.
  have -> : [seq f i | i <- iota k (m - k)] = UB :: [seq f i | i <- iota k.+1 (m - k).-1].
    by move: (ltnSn k) km; case e: (m - k)%N => [|j]; [move: e; lia|rewrite /= fk].
  have : forall x, x \in iota 0 k -> exists a, f x = Ok a by move=> x; rewrite mem_iota => /hk.
  elim: (iota 0 k) => [|x l IH] //= hx.
  have [a ->] := hx x (mem_head _ _); rewrite /= IH // => y hy; apply: hx.
  by rewrite inE hy orbT.
case: (ltngtP nf ns) ne => // h _.
- (* too many sites: site1 = nf *)
  apply: (ub _ _ _ 0%N) => //.
  have e i : (i < nf)%N -> exists a, connected_row nf ns nz 0 i = Ok a.
    move=> hi; exists [seq nz i j 0%N | j <- iota 0 ns]; apply: (oseq_map_ok (P := fun j => j < ns)%N).
      by apply/allP => x; rewrite mem_iota.
    by move=> j hj; rewrite /connected_entry /is_zero hi hj s0 /= negbK.
  rewrite /flavor_groups /connected_table (ub _ _ _ nf) //.
  by apply: (ub _ _ _ 0%N) => //; rewrite /connected_entry /is_zero ltnn.
- (* too many flavors: flavor = ns *)
  apply: (ub _ _ _ ns) => //.
    rewrite /flavor_groups /connected_table (ub _ _ _ 0%N) //.
    by apply: (ub _ _ _ 0%N) => //; rewrite /connected_entry /is_zero f0 s0 ltnn.
  move=> f hf; rewrite /flavor_groups /connected_table.
  rewrite (oseq_map_ok (g := fun i => [seq nz i j f | j <- iota 0 ns]) (P := fun i => i < ns)%N); first by eexists.
    by apply/allP => x; rewrite mem_iota.
  move=> i hi; apply: (oseq_map_ok (P := fun j => j < ns)%N); first by apply/allP => x; rewrite mem_iota.
  by move=> j hj; rewrite /connected_entry /is_zero (ltn_trans hi h) hj hf /= negbK.
Qed.

(* three sites, two flavors, on-site interaction: a well-formed input *)
Definition U3 : seq (vdef [numFieldType of rat]) :=
  [seq VDef 2 [:: 0%N; 1%N] (nseq 4 s) 2 1 (fun _ _ => 1 / 2%:R) | s <- iota 0 3].
Theorem C76_sites_refuted :
  exists (nf ns : nat) (U : seq (vdef [numFieldType of rat])), [/\ (0 < nf)%N, (0 < ns)%N, all (sp_shape_ok nf ns) U &
    forall nz, make_quantum_numbers nf ns nz U = UB].
Proof. by exists 2%N, 3%N, U3; split=> // nz; apply: sites_undefined. Qed.
Print Assumptions C76_sites_refuted.

(* The update manager passes the Green function before its data are read, when it has no
   flavors and no sites: undefined for every interaction. *)
Theorem C76_unread_refuted :
  exists nf ns : nat, forall (F : numFieldType) (nz : nat -> nat -> nat -> bool) (U : seq (vdef F)),
    make_quantum_numbers nf ns nz U = UB.
Proof. by exists 0%N, 0%N. Qed.
Print Assumptions C76_unread_refuted.

(* two flavors, two sites, hopping of flavor 0 only: a vertex that takes both from site 1 to
   site 0 changes the numbers of flavor 1 *)
Definition Uhop : seq (vdef [numFieldType of rat]) :=
  [:: VDef 2 [:: 0%N; 1%N] [:: 0; 0; 1; 1]%N 2 1 (fun _ _ => 1 / 2%:R);
      VDef 2 [:: 0%N; 1%N] [:: 0; 1; 0; 1]%N 1 1 (fun _ _ => 0)].
Example C76_case :
  all (sp_shape_ok 2 2) Uhop /\
  make_quantum_numbers 2 2 (fun f i j : nat => (i == j) || (f == 0)%N) Uhop =
  Ok ([:: [:: [:: 0; 0; 0; 0]; [:: 0; 0; 0; 0]]; [:: [:: 0; 0; 1; -1]]],
      [:: [:: [:: 0; 1]]; [:: [:: 0]; [:: 1]]]%N, [:: [:: 0; 0]; [:: 0; 1]]%N).
Proof. by []. Qed.

(* ------------------------------------------------------------------ C77 *)

Section Selection.
Variables (F : numFieldType) (Tm : eqType) (G0 : sop Tm -> sop Tm -> F) (U : seq (vdef F)) (x0 : sop Tm).
Variable grp : nat -> nat -> nat.
Notation gr := (fun x : sop Tm => grp x.1.1.1 x.1.1.2).

(* a non-zero determinant has a permutation along which no entry vanishes *)
Lemma det_nz n (a : nat -> nat -> F) : det_of n a != 0 -> exists s : 'S_n, forall i : 'I_n, a i (s i) != 0.
Proof.
move=> h; suff /existsP[s /forallP hs] : [exists s : 'S_n, [forall i : 'I_n, a i (s i) != 0]] by exists s.
apply: contraNT h; rewrite negb_exists => /forallP h; rewrite /det_of /determinant big1 // => s _.
have := h s; rewrite negb_forall => /existsP[i]; rewrite negbK => /eqP ai.
by rewrite (bigD1 i) //= mxE ai mul0r mulr0.
Qed.

Lemma balance n (a b : nat -> nat) (s : 'S_n) g : (forall i : 'I_n, a i = b (s i)) ->
  count (fun i => a i == g) (iota 0 n) = count (fun i => b i == g) (iota 0 n).
Proof.
move=> h; rewrite -!sum1_count.
have -> : (\sum_(i <- iota 0 n | a i == g) 1 = \sum_(i < n | a i == g) 1)%N.
  by rewrite -(subn0 n) -/(index_iota 0 n) big_mkord subn0.
have -> : (\sum_(i <- iota 0 n | b i == g) 1 = \sum_(i < n | b i == g) 1)%N.
  by rewrite -(subn0 n) -/(index_iota 0 n) big_mkord subn0.
by rewrite [RHS](reindex_inj (@perm_inj _ s)); apply: eq_bigl => i; rewrite h.
Qed.

Lemma count_nth (A : Type) (y : A) (P : pred A) (l : seq A) : count P l = count (fun i => P (nth y l i)) (iota 0 (size l)).
Proof. by rewrite -{1}(mkseq_nth y l) /mkseq count_map. Qed.

Lemma ops_count f g (sel : sop Tm * sop Tm * F -> sop Tm) (site : vdef F -> nat -> nat) vs :
  (forall v r, sp_flavor U v r == f -> gr (sel (sp_term U v r)) = grp f (site (sp_def U v) r)) ->
  (count (fun t => gr (sel t) == g) (sp_ops U f vs))%:Z =
  \sum_(v <- vs | ~~ v_non v) (count (fun r => grp f (site (sp_def U v) r) == g)
     [seq r <- iota 0 (vd_rank (sp_def U v)) | nth 0%N (vd_flavors (sp_def U v)) r == f])%:Z.
Proof.
move=> h; rewrite /sp_ops; elim: vs => [|v vs IH] /=; first by rewrite big_nil.
rewrite big_cons; case: ifP => _ //=; rewrite count_cat PoszD IH; congr (_%:Z + _).
rewrite count_map -/(sp_flavor U v); elim: (iota _ _) => [|r l IHl] //=.
rewrite -/(sp_flavor U v r).
by case: ifP => e //=; rewrite IHl; congr (_ + _)%N; rewrite h.
Qed.

Lemma selection (nf ns : nat) (vs : seq (vertex Tm)) f g :
  all (sp_shape_ok nf ns) U -> separates nf ns grp G0 ->
  (forall t, (t < size U)%N -> no_alpha_between grp (nth (vdef0 F) U t)) ->
  weight G0 U x0 nf vs != 0 -> (f < nf)%N -> sp_total U grp vs f g = 0.
Proof.
move=> hU sep noa; rewrite /weight mulf_eq0 negb_or => /andP[h _] hf.
have {h} : det_of (size (sp_ops U f vs)) (sp_mat G0 x0 (sp_ops U f vs)) != 0.
  by move/prodf_neq0: h => /(_ (Ordinal hf) isT).
case/det_nz => s hs.
have mem i : (i < size (sp_ops U f vs))%N -> exists v r,
    [/\ nth (term0 F x0) (sp_ops U f vs) i = sp_term U v r, (r < vd_rank (sp_def U v))%N & sp_flavor U v r = f].
  rewrite /sp_ops; elim: vs i {hs s} => [|v vs IH] //= i; case: ifP => _ /=; last exact: IH.
  rewrite size_cat nth_cat => hi; case: ltnP => [|hl]; last by apply: IH; move: hi hl; clear; lia.
  rewrite size_map => hl; exists v.
  rewrite (nth_map 0%N) //; set l := filter _ _ in hl *; exists (nth 0%N l i).
  have : nth 0%N l i \in l by rewrite mem_nth.
  by rewrite mem_filter mem_iota add0n => /andP[/eqP-> /andP[_ ->]].
pose C (site : vdef F -> nat -> nat) (v : vertex Tm) := (count (fun r => grp f (site (sp_def U v) r) == g)
     [seq r <- iota 0 (vd_rank (sp_def U v)) | nth 0%N (vd_flavors (sp_def U v)) r == f])%:Z.
have -> : sp_total U grp vs f g = \sum_(v <- vs | ~~ v_non v) (C (@sp_cre_site F) v - C (@sp_ann_site F) v) by [].
rewrite sumrB /C.
rewrite -(@ops_count f g (fun t => t.1.2) (@sp_cre_site F)); last first.
  by move=> v r /eqP e; rewrite /sp_term /= e addn0.
rewrite -(@ops_count f g (fun t => t.1.1) (@sp_ann_site F)); last first.
  by move=> v r /eqP e; rewrite /sp_term /= e addn1.
apply/eqP; rewrite subr_eq0; apply/eqP; congr (_%:Z); apply/esym.
rewrite !(count_nth (term0 F x0)).
apply: (balance (s := s) (a := fun i => gr (nth (term0 F x0) (sp_ops U f vs) i).1.1)
  (b := fun i => gr (nth (term0 F x0) (sp_ops U f vs) i).1.2)) => i.
have [v [r [ei rl vr]]] := mem i (ltn_ord i).
have [w [q [es ql wq]]] := mem (s i) (ltn_ord (s i)).
have := hs i; rewrite /sp_mat ei es /= vr wq.
set a := grp f _; set b := grp f _; case: (eqVneq a b) => // /eqP ne.
have inr (x : vertex Tm) t k : (t < vd_rank (sp_def U x))%N -> (k < 2)%N -> (nth 0%N (vd_sites (sp_def U x)) (2 * t + k) < ns)%N.
  move=> ht hk; have xt : (v_type x < size U)%N by case: ltnP => // h; move: ht; rewrite /sp_def nth_default.
  move/all_nthP: hU => /(_ (vdef0 F) _ xt) /and4P[_ h2 _ /allP]; apply; rewrite mem_nth //.
  by apply: leq_trans h2; move: ht hk; rewrite /sp_def; clear; lia.
rewrite sep ?inr // sub0r oppr_eq0; case: ifP => [/eqP ii|]; last by rewrite eqxx.
have : sp_term U v r = sp_term U w q by rewrite -ei -es -ii.
have et : sp_term U v r = sp_term U w q by rewrite -ei -es -ii.
have eb : b = grp f (sp_cre_site (sp_def U v) r).
  by have := congr1 (fun t => t.1.2.1.1.2) et; rewrite /= !addn0 /b addn0 => <-.
have vt : (v_type v < size U)%N by case: ltnP => // h; move: rl; rewrite /sp_def nth_default.
suff -> : vd_alpha (sp_def U v) (v_af v) r = 0 by rewrite eqxx.
apply: (noa _ vt (v_af v) r rl).
by rewrite -/(sp_flavor U v r) -/(sp_def U v) vr -eb /sp_ann_site -addn1 => e; apply: ne.
Qed.
End Selection.

(* On a system with as many sites as flavors, if sites connected by the Green function are in
   the same group and the parts between groups have alpha = 0, a configuration of non-zero
   weight has total quantum number zero.  Missing: the other cases, which are false. *)
Theorem C77_selection_partial :
  forall (F : numFieldType) (Tm : eqType) (G0 : sop Tm -> sop Tm -> F) (x0 : sop Tm) (n : nat)
    (nz : nat -> nat -> nat -> bool) (U : seq (vdef F)) qns groups maps (vs : seq (vertex Tm)),
    (0 < n)%N -> all (sp_shape_ok n n) U -> zero_where_not n n nz G0 ->
    make_quantum_numbers n n nz U = Ok (qns, groups, maps) ->
    (forall f, (f < n)%N -> decoupled n (nz f) (nth [::] maps f)) ->
    (forall t, (t < size U)%N -> no_alpha_between (fun f s => nth 0%N (nth [::] maps f) s) (nth (vdef0 F) U t)) ->
    all (sp_vertex_ok U) vs ->
    weight G0 U x0 n vs != 0 ->
    forall k, \sum_(v <- vs | ~~ v_non v) nth 0 (nth [::] (nth [::] qns (v_type v)) (v_af v)) k = 0.
Proof.
move=> F Tm G0 x0 n nz U qns groups maps vs n0 hU hz e hd noa hv hw k.
have [qns' [groups' [maps' []]]] := C76_quantum_numbers_partial nz n0 hU.
rewrite e => -[<- <- <-] [_ _ _ sq hq].
set nd := \max_(gr <- groups) size gr in hq; set grp := fun f s => nth 0%N (nth [::] maps f) s in hq.
have sep : separates n n grp G0.
  move=> f s1 s2 t1 t2 k1 k2 hf h1 h2 ne; apply: hz => //; apply/negP => h.
  by apply: ne; apply: hd.
case: (ltnP k (nd * n)) => hk.
  have nd0 : (0 < nd)%N by case: (nd) hk.
  have hf : (k %/ nd < n)%N by rewrite ltn_divLR // mulnC.
  have hg : (k %% nd < nd)%N by rewrite ltn_mod.
  apply: etrans (@selection _ _ _ _ _ grp _ _ _ _ (k %% nd) hU sep noa hw hf); rewrite /sp_total big_seq_cond [RHS]big_seq_cond; apply: eq_bigr => v /andP[vi vn].
  have /andP[vt] := allP hv v vi; rewrite (negbTE vn) /= => va.
  have [_ /(_ _ va) [_ h]] := hq _ vt.
  by rewrite -(h _ _ hf hg) mulnC -divn_eq.
rewrite big_seq_cond big1 // => v /andP[vi vn].
have /andP[vt] := allP hv v vi; rewrite (negbTE vn) /= => va.
have [_ /(_ _ va) [h _]] := hq _ vt.
by rewrite nth_default // h.
Qed.
Print Assumptions C77_selection_partial.

(* In the same situation, two types that can occur together on their own, the first with a
   non-zero quantum number, are a pair listed for the moves of two vertices. *)
Theorem C77_pairs_partial :
  forall (F : numFieldType) (Tm : eqType) (G0 : sop Tm -> sop Tm -> F) (x0 : sop Tm) (n : nat)
    (nz : nat -> nat -> nat -> bool) (U : seq (vdef F)) qns groups maps (x y : vertex Tm),
    (0 < n)%N -> all (sp_shape_ok n n) U -> all (fun d => 0 < vd_naf d)%N U -> zero_where_not n n nz G0 ->
    make_quantum_numbers n n nz U = Ok (qns, groups, maps) ->
    (forall f, (f < n)%N -> decoupled n (nz f) (nth [::] maps f)) ->
    (forall t, (t < size U)%N -> no_alpha_between (fun f s => nth 0%N (nth [::] maps f) s) (nth (vdef0 F) U t)) ->
    sp_vertex_ok U x -> sp_vertex_ok U y -> ~~ v_non x -> ~~ v_non y ->
    weight G0 U x0 n [:: x; y] != 0 ->
    has (fun c => c != 0) (nth [::] (nth [::] qns (v_type x)) 0) -> (v_type x < v_type y)%N ->
    exists L fl, find_valid_pairs qns = Ok (L, fl) /\ (v_type x, v_type y) \in L.
Proof.
move=> F Tm G0 x0 n nz U qns groups maps x y n0 hU na hz e hd noa hx hy nx ny hw h0 lt.
have hs := C77_selection_partial n0 hU hz e hd noa (vs := [:: x; y]) _ hw.
have [qns' [groups' [maps' []]]] := C76_quantum_numbers_partial nz n0 hU.
rewrite e => -[<- <- <-] [_ _ _ sq hq].
set nd := \max_(gr <- groups) size gr in hq.
have [xt xa] : (v_type x < size U)%N /\ (v_af x < vd_naf (sp_def U x))%N by move: hx; rewrite /sp_vertex_ok (negbTE nx) => /andP.
have [yt ya] : (v_type y < size U)%N /\ (v_af y < vd_naf (sp_def U y))%N by move: hy; rewrite /sp_vertex_ok (negbTE ny) => /andP.
have ok : qns_ok qns.
  have sz v : (v < size U)%N -> size (nth [::] (nth [::] qns v) 0) = (nd * n)%N /\ (0 < size (nth [::] qns v))%N.
    move=> hv; have := hq v hv; move/all_nthP: na => /(_ (vdef0 F) v hv) na [-> /(_ _ na) []] //.
  have U0 : (0 < size U)%N by apply: leq_ltn_trans xt.
  rewrite /qns_ok sq U0 /=; apply/(all_nthP [::]) => v; rewrite sq => hv.
  by have [-> ->] := sz v hv; rewrite /dim /q_; have [-> _] := sz 0%N U0; rewrite /=.
have [L [fl [-> _ _ hL _]]] := C71_valid_pairs ok.
exists L, fl; split=> //; rewrite hL lt /sp_cancels sq xt yt h0 /=.
have same v a : (v < size U)%N -> (a < vd_naf (nth (vdef0 F) U v))%N ->
    nth [::] (nth [::] qns v) a = nth [::] (nth [::] qns v) 0.
  move=> hv ha; have a0 : (0 < vd_naf (nth (vdef0 F) U v))%N by apply: leq_ltn_trans ha.
  have [_ h] := hq v hv; have [s1 h1] := h a ha; have [s2 h2] := h 0%N a0.
  apply: (@eq_from_nth _ 0); rewrite s1 ?s2 // => k hk.
  have nd0 : (0 < nd)%N by case: (nd) hk.
  have hf : (k %/ nd < n)%N by rewrite ltn_divLR // mulnC.
  have hg : (k %% nd < nd)%N by rewrite ltn_mod.
  by rewrite (divn_eq k nd) mulnC h1 // h2.
apply/allP => k _; have := hs _ k; rewrite /= hx hy => /(_ isT).
rewrite !big_cons big_nil nx ny addr0 (same _ _ xt xa) (same _ _ yt ya) => /eqP.
by rewrite addr_eq0.
Qed.
Print Assumptions C77_pairs_partial.

(* ---- witnesses ---- *)

Notation qT := [numFieldType of rat].
Notation tT := rat_eqType.
Definition hop1 (i j : nat) (al : rat) : vdef qT := VDef 1 [:: 1%N] [:: i; j] 1 1 (fun _ _ => al).
Definition vx (t : nat) : vertex tT := (t, 0%N, 0, false, t).
Definition op0 : sop tT := (0%N, 0%N, 0, 0).
Definition G_of (nz : nat -> nat -> nat -> bool) (x y : sop tT) : rat := if nz x.1.1.1 x.1.1.2 y.1.1.2 then 1 else 0.

(* a part between groups with alpha <> 0: weight (0 - alpha)(-U) although a particle changes
   groups *)
Definition nz_id (f i j : nat) := i == j.
Theorem C77_alpha_refuted :
  exists (n : nat) (nz : nat -> nat -> nat -> bool) (U : seq (vdef qT)) (vs : seq (vertex tT)) qns groups maps k,
    [/\ (0 < n)%N && all (sp_shape_ok n n) U && all (sp_vertex_ok U) vs, zero_where_not n n nz (G_of nz),
      make_quantum_numbers n n nz U = Ok (qns, groups, maps),
      forall f, (f < n)%N -> decoupled n (nz f) (nth [::] maps f) &
      weight (G_of nz) U op0 n vs <> 0 /\
      \sum_(v <- vs | ~~ v_non v) nth 0 (nth [::] (nth [::] qns (v_type v)) (v_af v)) k <> 0].
Proof.
exists 2%N, nz_id, [:: hop1 0 1 (1 / 2%:R)], [:: vx 0], [:: [:: [:: 0; 0; 1; -1]]], [:: [:: [:: 0%N; 1%N]]; [:: [:: 0%N]; [:: 1%N]]],
  [:: [:: 0; 0]; [:: 0; 1]]%N, 2%N.
split=> //.
- by move=> f s1 s2 t1 t2 k1 k2 _ _ _; rewrite /G_of /= => /negbTE ->.
- by move=> f hf i j hi hj /eqP ->.
- split; last by rewrite !big_cons big_nil.
  rewrite /weight !big_ord_recl big_ord0 !big_cons big_nil /=.
  by rewrite /det_of det_mx00 det_mx11 !mxE.
Qed.
Print Assumptions C77_alpha_refuted.

(* three flavors and sites, flavor 1 connects sites 0 and 2: looked up with exchanged
   arguments, site 2 is put into the group of site 1; alpha = 0 throughout *)
Definition nz_02 (f i j : nat) := (i == j) || [&& f == 1%N, i != 1%N & j != 1%N].
Theorem C77_lookup_refuted :
  exists (n : nat) (nz : nat -> nat -> nat -> bool) (U : seq (vdef qT)) (vs : seq (vertex tT)) qns groups maps k,
    [/\ (0 < n)%N && all (sp_shape_ok n n) U && all (sp_vertex_ok U) vs,
      zero_where_not n n nz (G_of nz) /\
      (forall t a r, vd_alpha (nth (vdef0 qT) U t) a r = 0),
      make_quantum_numbers n n nz U = Ok (qns, groups, maps),
      forall f, (f < n)%N -> (forall i j, nz f i j = nz f j i) /\ (forall i j l, nz f i j -> nz f j l -> nz f i l) &
      weight (G_of nz) U op0 n vs <> 0 /\
      \sum_(v <- vs | ~~ v_non v) nth 0 (nth [::] (nth [::] qns (v_type v)) (v_af v)) k <> 0].
Proof.
exists 3%N, nz_02, [:: hop1 0 2 0], [:: vx 0], [:: [:: [:: 0; 0; 1; -1; 0; 0]]],
  [:: [:: [:: 0; 1; 2]]; [:: [:: 0]; [:: 1; 2]]; [:: [:: 0; 1]; [:: 2]]]%N,
  [:: [:: 0; 0; 0]; [:: 0; 1; 1]; [:: 0; 0; 1]]%N, 2%N.
split=> //.
- split; first by move=> f s1 s2 t1 t2 k1 k2 _ _ _; rewrite /G_of /= => /negbTE ->.
  by case=> [|t] a r //=; rewrite nth_nil.
- move=> f hf; split; first by move=> i j; rewrite /nz_02 [i == j]eq_sym [(i != _) && _]andbC.
  move=> i j l; rewrite /nz_02; case: (eqVneq i j) => [-> //|_] /= /and3P[-> i1 j1].
  by case: (eqVneq j l) => [<- _|_ /= /andP[_ ->]]; rewrite i1 ?j1 ?orbT.
- split; last by rewrite !big_cons big_nil.
  rewrite /weight !big_ord_recl big_ord0 !big_cons big_nil /=.
  by rewrite /det_of !det_mx00 det_mx11 !mxE.
Qed.
Print Assumptions C77_lookup_refuted.

(* two vertices that exchange a particle of flavor 1 between two sites not connected by the
   Green function: non-zero weight, quantum numbers that cancel, a listed pair *)
Definition Uex : seq (vdef qT) := [:: hop1 0 1 0; hop1 1 0 0].
Example C77_case :
  [/\ zero_where_not 2 2 nz_id (G_of nz_id),
    make_quantum_numbers 2 2 nz_id Uex =
      Ok ([:: [:: [:: 0; 0; 1; -1]]; [:: [:: 0; 0; -1; 1]]],
          [:: [:: [:: 0; 1]]; [:: [:: 0]; [:: 1]]]%N, [:: [:: 0; 0]; [:: 0; 1]]%N),
    weight (G_of nz_id) Uex op0 2 [:: vx 0; vx 1] = -1,
    (forall f, (f < 2)%N -> decoupled 2 (nz_id f) (nth [::] [:: [:: 0; 0]; [:: 0; 1]]%N f)) &
    (forall t, no_alpha_between (fun f s => nth 0%N (nth [::] [:: [:: 0; 0]; [:: 0; 1]]%N f) s) (nth (vdef0 qT) Uex t)) /\
    (if find_valid_pairs [:: [:: [:: 0; 0; 1; -1]]; [:: [:: 0; 0; -1; 1]]] is Ok (L, _) then L == [:: (0, 1)%N] else false)].
Proof.
split=> //.
- by move=> f s1 s2 t1 t2 k1 k2 _ _ _; rewrite /G_of /= => /negbTE ->.
- rewrite /weight !big_ord_recl big_ord0 !big_cons big_nil /=.
  have e0 (a : nat -> nat -> rat) : det_of 0 a = 1 by rewrite /det_of det_mx00.
  rewrite e0 (@Prop_DetMat.det2 [fieldType of rat]) /sp_mat /=.
  by apply/eqP.
- by move=> f hf i j hi hj /eqP ->.
- by split=> // t a r _ _; case: t => [|[|t]] //=; rewrite nth_nil.
Qed.
