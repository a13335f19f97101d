(* Proofs about the partitioned determinant matrix: requests and histories. *)
From mathcomp Require Import all_ssreflect ssralg ssrint fingroup perm matrix order zify ring.
From Verif Require Import Outcome SortModel SortSpec SortProofs MatLib BlockLib MatSpec
  ClusterModel ClusterSpec ClusterProofs FormulaModel FormulaProofs DetMatModel DetMatSpec DetMatSide DetMatProofs
  DetMatCycles DetMatMain PartModel PartSpec PartSide PartProofs PartLoops.

Set Implicit Arguments.
Unset Strict Implicit.
Unset Printing Implicit Defensive.

Local Open Scope ring_scope.
Import GRing.Theory Order.TTheory.

Lemma kept_perm (A : eqType) (l r : seq A) : uniq l -> uniq r -> {subset r <= l} ->
  perm_eq ([seq o <- l | o \notin r] ++ r) l.
Proof.
move=> ul ur sub; apply: uniq_perm => //.
  rewrite cat_uniq filter_uniq //= ur andbT; apply/hasPn => o orr.
  by rewrite /= mem_filter orr.
move=> o; rewrite mem_cat mem_filter.
by case: (boolP (o \in r)) => [/sub -> //|_] /=; rewrite orbF.
Qed.

Lemma kept_size (A : eqType) (l r : seq A) : uniq l -> uniq r -> {subset r <= l} ->
  (size [seq o <- l | o \notin r] + size r = size l)%N.
Proof. by move=> ul ur sub; rewrite -size_cat; apply: perm_size; apply: kept_perm. Qed.

Lemma size_arith a1 a2 b1 b2 r1 r2 d1 d2 : (b1 + r1 = a1)%N -> (b2 + r2 = a2)%N -> a1 = a2 ->
  (b1 + d1 == b2 + d2)%N = (d1 + r2 == d2 + r1)%N.
Proof. lia. Qed.

Section Main.
Variables (F : fieldType) (disp : unit) (T : orderType disp).
Variables (CD C : eqType) (tcd : CD -> T) (tc : C -> T) (cd0 : CD) (c0 : C).
Variables (fcd : CD -> nat) (fc : C -> nat).
Variable gf : C -> CD -> F.
Variables (N : nat) (connected : nat -> nat -> bool).
Hypothesis csym : forall i j, (i < N)%N -> (j < N)%N -> connected i j = connected j i.
Hypothesis resp : respects fcd fc gf connected.
Notation dm := (dm F T CD C).
Notation pdm := (pdm F T CD C).
Notation d0 := (dm_new F T CD C).
Notation weight := (weight tcd tc cd0 c0 gf).
Notation holds := (@holds F _ T CD C tcd tc cd0 c0 gf).
Notation p_holds := (p_holds tcd tc cd0 c0 fcd fc gf).
Notation p_ready := (p_ready tcd tc cd0 c0 fcd fc gf N connected).
Notation p_admissible := (@p_admissible F _ T CD C tcd tc fcd fc).
Notation conf := (conf CD C).
Notation request := (request CD C).
Notation sconf := (sector_conf fcd fc).
Notation sreq := (sector_request fcd fc).
Implicit Types (p : pdm) (x : conf) (u : request) (d : dm).

Lemma mem_connections i j : ((i, j) \in connections N connected) = [&& (i < N)%N, (j < i)%N & connected i j].
Proof.
apply/flatten_mapP/and3P => [[f]|[iN ji cij]].
  by rewrite mem_iota => /andP [_ fN] /mapP [f2]; rewrite mem_filter mem_iota => /andP [cf /andP [_ ff]] [-> ->].
exists i; first by rewrite mem_iota.
by apply/mapP; exists j => //; rewrite mem_filter cij mem_iota.
Qed.

Lemma layout_ok p : layout N connected p ->
  [/\ size (p_labels p) = N, (size (p_members p) <= N)%N,
      forall f, (f < N)%N -> (nth 0%N (p_labels p) f < size (p_members p))%N &
      forall c cd, (fc c < N)%N -> (fcd cd < N)%N ->
        sector_of (p_labels p) fc c != sector_of (p_labels p) fcd cd -> gf c cd = 0].
Proof.
case=> pf [zl lk [fi [srt mfi zm _]] lt mem] zd _; split=> //.
- rewrite zm; have u : uniq fi by apply: sorted_uniq srt; [exact: ltn_trans | exact: ltnn].
  rewrite -[X in (_ <= X)%N](size_iota 0); apply: uniq_leq_size => // v /mfi [vN _].
  by rewrite mem_iota.
move=> c cd cN cdN ne; have nl : ~ linked (connections N connected) (fc c) (fcd cd).
  by move=> /(lk _ _ cN cdN) e; move: ne; rewrite /sector_of e eqxx.
apply: resp; first by apply: contraNneq ne; rewrite /sector_of => ->.
apply/negP => cc; case: (ltngtP (fc c) (fcd cd)) => [l|l|e].
- apply: nl; apply: linked_sym; apply: linked_op; rewrite mem_connections cdN l /=.
  by rewrite -csym.
- by apply: nl; apply: linked_op; rewrite mem_connections cN l.
- by apply: nl; rewrite e; apply: linked_refl.
Qed.

Lemma shape_balanced u : DetMatSpec.shape u -> balanced u.
Proof.
rewrite /DetMatSpec.shape /balanced.
by case/or3P => [/andP [/eqP -> /eqP ->]|/and4P [/eqP -> /eqP -> /eqP -> /eqP ->]|/and4P [/eqP -> /eqP -> /eqP -> /eqP ->]]; rewrite // addnC.
Qed.

(* one sector *)
Definition Sec d x u d1 (r : F) : Prop :=
  [/\ exists d2, reject_update tcd tc cd0 c0 d1 = DOk d2 tt /\ holds d2 x,
      balanced u -> ~~ mixed u \/ weight (kept u x) != 0 -> weight (after u x) = r * weight x,
      ~~ balanced u -> r = 0 &
      r != 0 -> weight (after u x) = r * weight x /\
        exists d3, perform_update tcd tc cd0 c0 d1 = DOk d3 tt /\ holds d3 (after u x)].

Lemma sector_ok d x u : holds d x -> DetMatSpec.shape u \/ ~~ balanced u ->
  uniq (rem_cd u) && uniq (rem_c u) -> {subset rem_cd u <= x.1} -> {subset rem_c u <= x.2} ->
  distinct_times tcd tc (after u x) ->
  exists d1 r, try_update tcd tc cd0 c0 gf (rem_cd u) (rem_c u) (add_cd u) (add_c u) d = DOk d1 r /\
    Sec d x u d1 r.
Proof.
move=> h [sh|nb] ur s1 s2 dis.
  have [//|d1 [r [e1 e2 e3 e4]]] := @request_ok _ _ _ _ _ tcd tc cd0 c0 gf d x u h.
  exists d1, r; split=> //; split=> //.
  by rewrite (shape_balanced sh).
exists (set_mode invalid_operation d), 0; split.
  by rewrite /try_update ifT.
split=> //.
- by exists (set_mode invalid_operation d).
- by rewrite (negbTE nb).
by rewrite eqxx.
Qed.

Lemma part_after labels s u x : sconf labels s (after u x) = after (sreq labels s u) (sconf labels s x).
Proof.
have e (O : eqType) (f : O -> nat) (l r a : seq O) :
   in_sector (sector_of labels f) s ([seq o <- l | o \notin r] ++ a) =
   [seq o <- in_sector (sector_of labels f) s l | o \notin in_sector (sector_of labels f) s r] ++
   in_sector (sector_of labels f) s a.
  rewrite /in_sector filter_cat; congr (_ ++ _); rewrite -!filter_predI; apply: eq_filter => o /=.
  rewrite mem_filter andbC; by case: (_ == s); rewrite ?andbF.
by rewrite /sector_conf /after /= !e.
Qed.

Lemma uniq_sub (O : eqType) (tm : O -> T) (P : pred O) (l : seq O) : uniq (map tm l) -> uniq (map tm (filter P l)).
Proof. exact: (subseq_uniq (map_subseq tm (filter_subseq _ _))). Qed.

Lemma distinct_sector labels s x : distinct_times tcd tc x -> distinct_times tcd tc (sconf labels s x).
Proof.
rewrite /distinct_times /=; apply: subseq_uniq; apply: cat_subseq; apply: map_subseq; exact: filter_subseq.
Qed.

Lemma known_in labels n (O : eqType) (f : O -> nat) (l : seq O) :
  (forall g, (g < N)%N -> (nth 0%N labels g < n)%N) -> all (fun o => f o < N)%N l ->
  all (fun o => sector_of labels f o < n)%N l.
Proof. by move=> h; apply: sub_all => o /h. Qed.

Lemma clear_ok (O : eqType) (f : O -> nat) labels ns (w : seq (seq O)) (l : seq O) :
  (ns <= N)%N -> pushed labels f (nseq N [::]) l w -> all (fun o => sector_of labels f o < ns)%N l ->
  clear_lists ns w = nseq N [::].
Proof.
move=> nN [zw h] al; rewrite size_nseq in zw; apply: (@eq_from_nth _ [::]).
  by rewrite size_cat size_nseq size_drop zw size_nseq subnKC.
move=> k; rewrite size_cat size_nseq size_drop zw subnKC // => kN.
rewrite nth_nseq kN nth_cat size_nseq; case: ltnP => kn; first by rewrite nth_nseq kn.
rewrite nth_drop subnKC // h nth_nseq kN /=.
apply/eqP; rewrite -size_eq0 size_filter -leqn0 leqNgt -has_count; apply/hasPn => o ol.
by apply: contraTN kn => /eqP <-; rewrite -ltnNge; move/allP: al; apply.
Qed.

Lemma actual_perm (O : eqType) (f : O -> nat) labels (g : dm -> seq O) ds ns (l : seq O) :
  size ds = ns -> all (fun o => sector_of labels f o < ns)%N l ->
  (forall s, (s < ns)%N -> perm_eq (g (nth d0 ds s)) (in_sector (sector_of labels f) s l)) ->
  perm_eq (flatten (map g ds)) l.
Proof.
move=> zd al h; apply: (@perm_trans _ (flatten [seq in_sector (sector_of labels f) k l | k <- iota 0 ns])); last first.
  by apply: perm_trans (sectors_perm _ _ _) _; rewrite (all_filterP al).
have -> : map g ds = [seq g (nth d0 ds k) | k <- iota 0 ns].
  rewrite -[in LHS](mkseq_nth d0 ds) zd /mkseq -map_comp; exact: eq_map.
have : {subset iota 0 ns <= [pred k | (k < ns)%N]} by move=> k; rewrite mem_iota => /andP [].
elim: (iota 0 ns) => [|k ks IH] //= sub; apply: perm_cat.
  by apply: h; apply: sub; rewrite inE eqxx.
by apply: IH => j jk; apply: sub; rewrite inE jk orbT.
Qed.

Definition sg labels x : F := (-1) ^+ pinv tcd (sector_of labels fcd) x.1 * (-1) ^+ pinv tc (sector_of labels fc) x.2.

Lemma weight_parts p x : layout N connected p -> distinct_times tcd tc x -> known fcd fc N x ->
  (forall s, (s < size (p_members p))%N -> size (sconf (p_labels p) s x).1 = size (sconf (p_labels p) s x).2) ->
  weight x = sg (p_labels p) x * \prod_(s < size (p_members p)) weight (sconf (p_labels p) s x).
Proof.
move=> la; have [zl nN lt dec] := layout_ok la.
case: x => a b /distinct_split [ua ub _] /andP [ka kb] bal.
have ia := known_in lt ka; have ib := known_in lt kb.
apply: weight_sectors => // c cd cb cda; apply: dec.
  by move/allP: kb; apply.
by move/allP: ka; apply.
Qed.

Lemma holds_det d x : holds d x -> compute_determinant d = weight x.
Proof. by case. Qed.
Lemma holds_size d x : holds d x -> size x.1 = size x.2.
Proof. by case=> _ [_ []]. Qed.

Lemma det_sectors_holds ds ns labels x : size ds = ns ->
  (forall s, (s < ns)%N -> holds (nth d0 ds s) (sconf labels s x)) ->
  foldl *%R 1 [seq compute_determinant d | d <- ds] = \prod_(s < ns) weight (sconf labels s x).
Proof.
move=> zd h; rewrite (foldl_prod_nth (n := ns)) ?size_map //; apply: eq_bigr => s _.
by rewrite (nth_map d0) ?zd //; apply: holds_det; apply: h.
Qed.

Lemma ready_perm p x : p_ready p x -> p_perm p = sg (p_labels p) x.
Proof.
case=> la _ [[dis kn] _ _ h dt]; have [pf gc zd _] := la; rewrite pf in kn.
have e := weight_parts la dis kn (fun s sn => holds_size (h s sn)).
move: dt; rewrite /p_determinant (det_sectors_holds zd h) e => /mulIf; apply.
by apply/prodf_neq0 => s _; apply: holds_neq0; apply: h.
Qed.

Lemma block_inverse ds :
  (forall s, (s < size ds)%N -> exists n, [/\ sz (co (nth d0 ds s)) = n, size (ops (cds (co (nth d0 ds s)))) = n,
     size (ops (ans (co (nth d0 ds s)))) = n &
     inverse_of n (fun i j => gf (nth c0 (ops (ans (co (nth d0 ds s)))) i) (nth cd0 (ops (cds (co (nth d0 ds s)))) j))
       (inv (co (nth d0 ds s)))]) ->
  (forall s s' c cd, (s < size ds)%N -> (s' < size ds)%N -> s != s' -> c \in ops (ans (co (nth d0 ds s))) ->
     cd \in ops (cds (co (nth d0 ds s'))) -> gf c cd = 0) ->
  size (ops_in_actual_order ds).1 = size (ops_in_actual_order ds).2 /\
  inverse_of (size (ops_in_actual_order ds).1)
    (fun i j => gf (nth c0 (ops_in_actual_order ds).2 i) (nth cd0 (ops_in_actual_order ds).1 j)) (block_diagonal ds).
Proof.
elim: ds => [|d ds IH] h z; first by split=> // i j.
have [n [/= en z1 z2 hi]] := h 0%N isT.
have [e2 {}IH] := IH (fun s sl => h s.+1 sl) (fun s s' c cd sl sl' ne => z s.+1 s'.+1 c cd sl sl' ne).
rewrite /= !size_cat z1 z2 -e2; split=> // i j.
set a := flatten _ in IH e2 *; set b := flatten _ in IH e2 *; set m := size a in IH e2 *.
rewrite en => il jl.
have inflat (O : eqType) (f : dm -> seq O) o : o \in flatten (map f ds) ->
    exists2 k, (k < size ds)%N & o \in f (nth d0 ds k).
  rewrite -[X in map f X](mkseq_nth d0) /mkseq -map_comp => /flattenP [l /mapP [k]].
  by rewrite mem_iota => /andP [_ kl] -> ok; exists k.
have zer c cd : c \in ops (ans (co d)) -> cd \in a -> gf c cd = 0.
  move=> cb /inflat [k kl cda].
  exact: (z 0%N k.+1).
have zer' c cd : c \in b -> cd \in ops (cds (co d)) -> gf c cd = 0.
  move=> /inflat [k kl cb] cda.
  exact: (z k.+1 0%N).
have inb k : (k < m)%N -> nth c0 b k \in b by move=> km; apply: mem_nth; rewrite /b -e2.
have ina k : (k < m)%N -> nth cd0 a k \in a by exact: mem_nth.
rewrite big_split_ord /=.
have E1 (k : 'I_n) : ((k < n)%N = true) by exact: ltn_ord.
have E2 (k : 'I_m) : ((n + k < n)%N = false) by rewrite ltnNge leq_addr.
have E3 (k : 'I_n) : ((n <= k)%N = false) by rewrite leqNgt E1.
rewrite (eq_bigr (fun k : 'I_n => gf (nth c0 (ops (ans (co d)) ++ b) i) (nth cd0 (ops (cds (co d))) k) *
   (if (j < n)%N then inv (co d) k j else 0))); last first.
  by move=> k _; rewrite E1 E3 /= [in nth cd0 _ _]nth_cat z1 E1.
rewrite [X in _ + X](eq_bigr (fun k : 'I_m => gf (nth c0 (ops (ans (co d)) ++ b) i) (nth cd0 a k) *
   (if (n <= j)%N then block_diagonal ds k (j - n)%N else 0))); last first.
  by move=> k _; rewrite E2 /= [in nth cd0 _ _]nth_cat z1 E2 leq_addr addKn.
rewrite nth_cat z2; case: (ltnP i n) => hin; case: (ltnP j n) => hjn.
- rewrite [X in _ + X]big1 ?addr0 => [|k _]; last by rewrite mulr0.
  exact: hi.
- rewrite [X in X + _]big1 ?add0r => [|k _]; last by rewrite mulr0.
  rewrite big1 => [|k _]; last by rewrite zer ?mul0r ?ina // mem_nth // z2.
  by rewrite (ltn_eqF (leq_trans hin hjn)).
- rewrite [X in _ + X]big1 ?addr0 => [|k _]; last by rewrite mulr0.
  rewrite big1 => [|k _]; last first.
    by rewrite zer' ?mul0r ?inb ?ltn_subLR // mem_nth // z1.
  by rewrite (gtn_eqF (leq_trans hjn hin)).
rewrite [X in X + _]big1 ?add0r => [|k _]; last by rewrite mulr0.
rewrite (IH (i - n)%N (j - n)%N) ?ltn_subLR //.
by rewrite -(eqn_add2r n) !subnK.
Qed.

(* the object rebuilt from its parts is ready *)
Lemma make_ready p x : layout N connected p -> idle N p -> distinct_times tcd tc x -> known fcd fc N x ->
  sets_hold (sector_of (p_labels p) fcd) (size (p_members p)) (p_cd p) x.1 ->
  sets_hold (sector_of (p_labels p) fc) (size (p_members p)) (p_c p) x.2 ->
  (forall s, (s < size (p_members p))%N -> holds (nth d0 (p_dets p) s) (sconf (p_labels p) s x)) ->
  p_perm p = sg (p_labels p) x -> p_ready p x.
Proof.
move=> la id dis kn s1 s2 h pp; have [pf gc zd [o1 o2]] := la; have [zl nN lt dec] := layout_ok la.
split=> //; split=> //; rewrite ?pf //.
- move: (kn) => /andP [ka kb].
  have pe1 : perm_eq (p_ocd p) x.1.
    by rewrite o1; apply: (actual_perm zd (known_in lt ka)) => s /h [_ [[h1 _ _ _] _] _ _ _]; exact: h1.
  have pe2 : perm_eq (p_oc p) x.2.
    by rewrite o2; apply: (actual_perm zd (known_in lt kb)) => s /h [_ [[_ _ h1 _] _] _ _ _]; exact: h1.
  split=> //; rewrite -(perm_size pe1) /p_inverse.
  have [] := @block_inverse (p_dets p); last by rewrite /= -o1 -o2.
    rewrite zd => s /h [_ [[h1 _ h2 _] [h3 h4]] _ h5 _]; exists (size (sconf (p_labels p) s x).1).
    by rewrite (perm_size h1) (perm_size h2) -h3.
  rewrite zd => s s' c cd sn sn' ne.
  have [_ [[_ _ hs2 _] _] _ _ _] := h s sn; have [_ [[hs1 _ _ _] _] _ _ _] := h s' sn'.
  rewrite (perm_mem hs2) (perm_mem hs1) !mem_filter => /andP [/eqP e1 m1] /andP [/eqP e2 m2].
  apply: dec; rewrite ?e1 ?e2 //.
    by move/allP: kb; apply.
  by move/allP: ka; apply.
rewrite /p_determinant (det_sectors_holds zd h) pp.
by rewrite -(weight_parts la dis kn (fun s sn => holds_size (h s sn))).
Qed.

Definition PCyc p x u : Prop := exists p1 r,
  [/\ p_try tcd tc cd0 c0 fcd fc gf (rem_cd u) (rem_c u) (add_cd u) (add_c u) p = Ok (p1, r),
      exists p2, p_reject tcd tc cd0 c0 p1 = Ok p2 /\ p_ready p2 x,
      no_singular_step tcd tc cd0 c0 fcd fc gf p u x -> size (after u x).1 = size (after u x).2 ->
        weight (after u x) = r * weight x &
      r != 0 -> weight (after u x) = r * weight x /\
        exists p3, p_perform tcd tc cd0 c0 p1 = Ok p3 /\ p_ready p3 (after u x)].

Theorem p_request_ok p x u : p_ready p x -> p_admissible p u x -> PCyc p x u.
Proof.
move=> rd [/andP [ur1 ur2] sub1 sub2 [dis ka] shp].
have pp := ready_perm rd; case: (rd) => la [w1 w2 w3 w4] [[disx kx] [hs1 hs2] _ h _].
have [pf gc zd _] := la; have [zl nN lt dec] := layout_ok la; rewrite pf in kx ka.
set ns := size (p_members p) in nN lt hs1 hs2 h shp zd.
set lb := p_labels p in zl lt dec hs1 hs2 h shp pp.
move: (kx) (ka) => /andP [kx1 kx2] /andP [/= ka1 ka2].
have ix1 := known_in lt kx1; have ix2 := known_in lt kx2.
have ia1 := known_in lt ka1; have ia2 := known_in lt ka2.
have [ux1 ux2 _] := @distinct_split _ _ _ _ tcd tc x.1 x.2 disx.
have [uy1 uy2 _] := @distinct_split _ _ _ _ tcd tc (after u x).1 (after u x).2 dis.
have ir1 : all (fun o => sector_of lb fcd o < ns)%N (rem_cd u).
  by apply/allP => o /sub1; move: o; exact/allP.
have ir2 : all (fun o => sector_of lb fc o < ns)%N (rem_c u).
  by apply/allP => o /sub2; move: o; exact/allP.
have ik1 : all (fun o => sector_of lb fcd o < ns)%N ((after u x).1).
  by rewrite all_cat ia1 andbT; apply/allP => o; rewrite mem_filter => /andP [_]; move: o; exact/allP.
have ik2 : all (fun o => sector_of lb fc o < ns)%N ((after u x).2).
  by rewrite all_cat ia2 andbT; apply/allP => o; rewrite mem_filter => /andP [_]; move: o; exact/allP.
have kaf : known fcd fc N (after u x).
  apply/andP; split; rewrite all_cat ?ka1 ?ka2 andbT; apply/allP => o; rewrite mem_filter => /andP [_].
    by move: o; apply/allP.
  by move: o; apply/allP.
have nw : (ns <= size (nseq N [::] : seq (seq CD)))%N by rewrite size_nseq.
have nw' : (ns <= size (nseq N [::] : seq (seq C)))%N by rewrite size_nseq.
have [wr1 [e1 [t1 [l1 q1 h1 g1]]]] := @erase_loop_ok F _ _ _ tcd lb fcd ns (rem_cd u) (nseq N [::]) 1 _ _ hs1 ux1 ix1 ur1 sub1 nw.
have [wr2 [e2 [t2 [l2 q2 h2 g2]]]] := @erase_loop_ok F _ _ _ tc lb fc ns (rem_c u) (nseq N [::]) (1 * e1) _ _ hs2 ux2 ix2 ur2 sub2 nw'.
have [wa1 [e3 [t3 [l3 q3 h3 g3]]]] := @insert_loop_ok F _ _ _ tcd lb fcd ns (add_cd u) (nseq N [::]) (1 * e1 * e2) _ _ h1 uy1 ik1 nw.
have [wa2 [e4 [t4 [l4 q4 h4 g4]]]] := @insert_loop_ok F _ _ _ tc lb fc ns (add_c u) (nseq N [::]) (1 * e1 * e2 * e3) _ _ h2 uy2 ik2 nw'.
set sgn := 1 * e1 * e2 * e3 * e4.
have esg : sgn * sg lb x = sg lb (after u x).
  rewrite /sg -g3 -g4 -g1 -g2 /sgn mul1r.
  move: ((-1) ^+ pinv _ _ _) ((-1) ^+ pinv _ _ _) => A B; ring.
(* the sectors *)
have [|ds1 [rs [f1 z1 zr f2]]] := @sector_loop_ok F _ _ _ _ d0 F 0
   (fun s => try_update tcd tc cd0 c0 gf (nth [::] wr1 s) (nth [::] wr2 s) (nth [::] wa1 s) (nth [::] wa2 s))
   (fun s d1 r => Sec (nth d0 (p_dets p) s) (sconf lb s x) (sreq lb s u) d1 r) 0 (p_dets p).
  rewrite zd => s sn; rewrite add0n; case: (q1) (q2) (q3) (q4) => [_ ->] [_ ->] [_ ->] [_ ->].
  rewrite !nth_nseq !if_same !cat0s.
  apply: (@sector_ok _ (sconf lb s x) (sreq lb s u)); rewrite ?filter_uniq -?part_after //.
  - exact: h.
  - exact: shp.
  - by move=> o; rewrite !mem_filter => /andP [-> /sub1].
  - by move=> o; rewrite !mem_filter => /andP [-> /sub2].
  exact: distinct_sector.
rewrite zd in z1 zr f2.
set p1 := PDM (p_flavors p) (p_members p) lb ds1 (p_perm p) (p_ocd p) (p_oc p) t3 t4
            (Some (sgn * p_perm p)) wr1 wr2 wa1 wa2.
exists p1, (foldl *%R 1 rs * sgn).
have etry : p_try tcd tc cd0 c0 fcd fc gf (rem_cd u) (rem_c u) (add_cd u) (add_c u) p = Ok (p1, foldl *%R 1 rs * sgn).
  have n1 : all (fun o => fcd o < size (p_labels p))%N (rem_cd u ++ add_cd u).
    by rewrite zl all_cat ka1 andbT; apply/allP => o /sub1; move: o; exact/allP.
  have n2 : all (fun o => fc o < size (p_labels p))%N (rem_c u ++ add_c u).
    by rewrite zl all_cat ka2 andbT; apply/allP => o /sub2; move: o; exact/allP.
  by rewrite /p_try n1 n2 /= w1 w2 w3 w4 l1 l2 l3 l4 f1.
have c1 := clear_ok nN q1 ir1; have c2 := clear_ok nN q2 ir2.
have c3 := clear_ok nN q3 ia1; have c4 := clear_ok nN q4 ia2.
have er (O : eqType) (f : O -> nat) (l : seq O) w : pushed lb f (nseq N [::]) l w ->
   forall k, nth [::] w k = in_sector (sector_of lb f) k l.
  by case=> _ e k; rewrite e nth_nseq if_same.
have sizes s : (s < ns)%N ->
    (size (sconf lb s (after u x)).1 == size (sconf lb s (after u x)).2) = balanced (sreq lb s u).
  move=> sn; have := holds_size (h s sn).
  have k1 : (size [seq o <- (sconf lb s x).1 | o \notin rem_cd (sreq lb s u)] +
     size (rem_cd (sreq lb s u)) = size (sconf lb s x).1)%N.
    apply: kept_size; rewrite ?filter_uniq ?(map_uniq ux1) //.
    by move=> o; rewrite !mem_filter => /andP [-> /sub1].
  have k2 : (size [seq o <- (sconf lb s x).2 | o \notin rem_c (sreq lb s u)] +
     size (rem_c (sreq lb s u)) = size (sconf lb s x).2)%N.
    apply: kept_size; rewrite ?filter_uniq ?(map_uniq ux2) //.
    by move=> o; rewrite !mem_filter => /andP [-> /sub2].
  rewrite part_after /after /balanced [X in X == _]size_cat [X in _ == X]size_cat.
  by move=> e; exact: (size_arith _ _ k1 k2 e).
(* exactness *)
have exact_ : (forall s, (s < ns)%N -> balanced (sreq lb s u) /\
      weight (after (sreq lb s u) (sconf lb s x)) = nth 0 rs s * weight (sconf lb s x)) ->
    weight (after u x) = foldl *%R 1 rs * sgn * weight x.
  move=> hs.
  have bal s : (s < ns)%N -> size (sconf lb s (after u x)).1 = size (sconf lb s (after u x)).2.
    move=> sn; apply/eqP; rewrite sizes //; exact: (hs s sn).1.
  rewrite (weight_parts la dis kaf bal) (weight_parts la disx kx (fun s sn => holds_size (h s sn))) -/lb -/ns.
  rewrite -esg (foldl_prod_nth (n := ns)) //.
  rewrite (eq_bigr (fun s : 'I_ns => nth 0 rs s * weight (sconf lb s x))); last first.
    by move=> s _; rewrite part_after; apply: (hs s _).2.
  by rewrite big_split /= mulrACA; congr (_ * _); rewrite mulrC.
have rN0 : foldl *%R 1 rs * sgn != 0 -> forall s, (s < ns)%N -> nth 0 rs s != 0.
  rewrite (foldl_prod_nth (n := ns)) // mulf_eq0 negb_or => /andP [+ _] s sn.
  by move=> /prodf_neq0 /(_ (Ordinal sn) isT).
split=> //.
- have [|ds2 [us [v1 z2 _ v2]]] := @sector_loop_ok F _ _ _ _ d0 unit tt
     (fun _ => reject_update tcd tc cd0 c0) (fun s d _ => holds d (sconf lb s x)) 0 ds1.
    rewrite z1 => s /f2 [[d2 [j1 j2]] _ _ _]; exists d2, tt; rewrite add0n; split=> //.
  rewrite z1 in z2 v2.
  eexists; split; first by rewrite /p_reject v1 /=; reflexivity.
  rewrite /num_sectors /= -/ns c1 c2 c3 c4; apply: make_ready => //.
  + apply: (revert_ok F h3 uy1 ux1 ur1 sub1 ix1 ia1); [exact: er q1 | exact: er q3].
  + apply: (revert_ok F h4 uy2 ux2 ur2 sub2 ix2 ia2); [exact: er q2 | exact: er q4].
- move=> nsi es; case: (boolP [forall s : 'I_ns, balanced (sreq lb s u)]) => [/forallP ab|].
    apply: exact_ => s sn; split; first exact: (ab (Ordinal sn)).
    by have [_ j _ _] := f2 s sn; apply: j; [exact: (ab (Ordinal sn)) | exact: nsi].
  rewrite negb_forall => /existsP [s nb].
  have r0 : nth 0 rs s = 0 by have [_ _ j _] := f2 s (ltn_ord s); exact: j.
  rewrite (foldl_prod_nth (n := ns)) // (bigD1 s) //= r0 !mul0r.
  apply: (@weight_unbalanced _ _ _ _ _ tcd tc cd0 c0 gf (sector_of lb fcd) (sector_of lb fc) ns) => //.
  - move=> c cd cb cda; apply: dec.
      by case/andP: kaf => _ /allP; apply.
    by case/andP: kaf => /allP + _; apply.
  by exists s; rewrite ?sizes.
move=> /rN0 rn; split.
  apply: exact_ => s sn; have [_ _ j1 j2] := f2 s sn; split; last exact: (j2 (rn s sn)).1.
  by apply: contraNT (rn s sn) => /j1 ->.
have [|ds2 [us [v1 z2 _ v2]]] := @sector_loop_ok F _ _ _ _ d0 unit tt
   (fun _ => perform_update tcd tc cd0 c0) (fun s d _ => holds d (sconf lb s (after u x))) 0 ds1.
  rewrite z1 => s sn; have [_ _ _ j] := f2 s sn; have [_ [d3 [j1 j2]]] := j (rn s sn).
  by exists d3, tt; rewrite add0n part_after.
rewrite z1 in z2 v2.
eexists; split; first by rewrite /p_perform v1 /=; reflexivity.
rewrite /num_sectors /= -/ns c1 c2 c3 c4; apply: make_ready => //.
- by rewrite /= pp esg.
Qed.

Theorem p_history_ok p x p2 x2 : p_ready p x ->
  p_history tcd tc cd0 c0 fcd fc gf p x p2 x2 -> p_ready p2 x2.
Proof.
move=> rd hh; elim: hh rd => // {}p {}x u acc r p1 {}p2 {}x2 ad cy an _ IH rd; apply: IH.
have [q1 [r1 [e1 [q2 [e2 h2]] _ e4]]] := p_request_ok rd ad.
move: cy; rewrite /p_cycle e1 /=; case: acc an => an.
  case e5: (p_perform tcd tc cd0 c0 q1) => [q3| | |] //= [<- er].
  have [|_ [q4 [e6 h6]]] := e4; first by rewrite er; apply: an.
  by move: e6; rewrite e5 => - [->].
by rewrite e2 /= => - [<- _].
Qed.

Theorem p_new_ok : exists p, pdm_new F T CD C N connected = Ok p /\ p_ready p ([::], [::]).
Proof.
have [|lb [mb [e g]]] := @clustering_ok N (connections N connected).
  apply/allP => - [i j]; rewrite mem_connections => /and3P [iN ji _].
  by rewrite /= iN (ltn_trans ji iN).
exists (PDM N mb lb (nseq (size mb) d0) 1 [::] [::]
   (Sets [::] (nseq (size mb) [::])) (Sets [::] (nseq (size mb) [::])) None
   (nseq N [::]) (nseq N [::]) (nseq N [::]) (nseq N [::])).
rewrite /pdm_new e; split=> //; apply: make_ready => //.
- have fl (O : eqType) (f : dm -> seq O) n : f d0 = [::] -> [::] = flatten (map f (nseq n d0)).
    by move=> ef; elim: n => //= n <-; rewrite ef.
  by split=> //=; rewrite ?size_nseq // -!fl.
- by split=> //=; [rewrite size_nseq | move=> k kn; rewrite nth_nseq if_same].
- by split=> //=; [rewrite size_nseq | move=> k kn; rewrite nth_nseq if_same].
- by move=> s sn; rewrite nth_nseq sn; apply: new_ok.
by rewrite /sg /pinv !big_nil !expr0 mulr1.
Qed.

Theorem p_new_ops_ok ps : known fcd fc N (unzip1 ps, unzip2 ps) -> distinct_times tcd tc (unzip1 ps, unzip2 ps) ->
  weight (unzip1 ps, unzip2 ps) != 0 ->
  exists p, pdm_new_ops tcd tc cd0 c0 fcd fc gf N connected ps = Ok p /\ p_ready p (unzip1 ps, unzip2 ps).
Proof.
move=> kn dis wn; have [p [e rd]] := p_new_ok.
have ad : p_admissible p (Req [::] [::] (unzip1 ps) (unzip2 ps)) ([::], [::]).
  split=> //; first by split=> //; case: (rd) => - [-> _ _].
  move=> s _; rewrite /DetMatSpec.shape /balanced /= addn0 addn0.
  by case: (_ == _); [left | right].
have [p1 [r [e1 _ e3 e4]]] := p_request_ok rd ad.
have er : weight (unzip1 ps, unzip2 ps) = r.
  rewrite -[r]mulr1 -(weight_nil tcd tc cd0 c0 gf); apply: e3.
    by move=> s _; left.
  by rewrite /= !size_map.
have [|_ [p3 [e5 h5]]] := e4; first by rewrite -er.
by exists p3; rewrite /pdm_new_ops e /= e1 /=.
Qed.

Theorem p_rebuild_ok p x : p_ready p x ->
  exists p2, p_rebuild cd0 c0 gf p = Ok p2 /\ p_ready p2 x.
Proof.
move=> rd; have pp := ready_perm rd; case: rd => la id [[dis kn] [s1 s2] _ h dt].
have [pf gc zd [o1 o2]] := la; rewrite pf in kn.
have [|ds1 [us [e1 z1 _ e2]]] := @sector_loop_ok F _ _ _ _ d0 unit tt (fun _ => rebuild_inverse_matrix cd0 c0 gf)
   (fun s d _ => holds d (sconf (p_labels p) s x) /\
      (ops (cds (co d)) = ops (cds (co (nth d0 (p_dets p) s))) /\ ops (ans (co d)) = ops (ans (co (nth d0 (p_dets p) s)))))
   0 (p_dets p).
  rewrite zd => s /h hd; have [d1 [ed hd1]] := rebuild_ok hd; exists d1, tt; rewrite add0n; split=> //; split=> //.
  by move: ed; rewrite /rebuild_inverse_matrix; case: hd => [[-> _] _ _ _ _] /= [<-].
rewrite zd in z1 e2.
have em (O : eqType) (f : dm -> seq O) : (forall s, (s < size (p_members p))%N -> f (nth d0 ds1 s) = f (nth d0 (p_dets p) s)) ->
    map f ds1 = map f (p_dets p).
  move=> ef; apply: (@eq_from_nth _ [::]); rewrite !size_map z1 ?zd // => s sn.
  by rewrite !(nth_map d0) ?z1 ?zd // ef.
eexists; split; first by rewrite /p_rebuild e1 /=; reflexivity.
apply: make_ready => //.
  split=> //=; rewrite o1 o2 !em // => s sn; by have [_ []] := e2 s sn.
by move=> s sn; have [] := e2 s sn.
Qed.

(* reading the object *)
Lemma p_size_ok p x : p_ready p x -> p_size p = size x.1.
Proof. by case=> _ _ [_ [[h _ _] _] _ _ _]; apply: perm_size h. Qed.
End Main.
