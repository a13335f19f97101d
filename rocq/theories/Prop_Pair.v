(* Property theorems: C70, C71, C72 (moves of two vertices). *)
From mathcomp Require Import all_ssreflect ssralg ssrnum ssrint rat matrix zify.
From mathcomp.algebra_tactics Require Import ring.
From Verif Require Prop_DetMat.
From Verif Require Import Outcome MatLib MatSpec FormulaProofs SubModel SubSpec SubConf SubProofs Prop_Sub UMatModel
  UMatProofs ManModel ManSpec ManCount ManProofs ManGlobal Prop_Man GreenModel GreenProofs PairModel PairSpec.

Set Implicit Arguments.
Unset Strict Implicit.
Unset Printing Implicit Defensive.

Import Order.TTheory GRing.Theory Num.Theory.
Local Open Scope ring_scope.

(* ---- proofs: the choice of a pair ---- *)

Lemma nth_pairs (A B C : Type) (f : A -> B -> C) (x : A) (y : B) (z : C) (s : seq A) (t : seq B) k :
  (k < size s * size t)%N ->
  nth z [seq f i j | i <- s, j <- t] k = f (nth x s (k %/ size t)) (nth y t (k %% size t)).
Proof.
elim: s k => [|i s IH] k /=; first by rewrite mul0n.
rewrite mulSn => kl; rewrite nth_cat size_map; case: ltnP => kt.
  by rewrite (nth_map y) // divn_small // modn_small.
have t0 : (0 < size t)%N by case: (size t) kl kt; rewrite ?muln0.
rewrite IH; last by rewrite ltn_subLR.
have e : k = (1 * size t + (k - size t))%N by rewrite mul1n subnKC.
by rewrite [in RHS]e divnMDl // modnMDl add1n.
Qed.

Lemma coeff_field (F : fieldType) (a b beta E : F) : a != 0 -> beta != 0 ->
  beta * beta * (2%:R * (1 - E) / (a * beta) + b) = beta * (2%:R / a * (1 - E) + b * beta).
Proof. by move=> an bn; field; rewrite an bn. Qed.

Section Choice.
Variables (F : numFieldType) (Tm : eqType) (tm0 : Tm) (beta : F) (exp : F -> F) (a b : F).
Variable tdiff : Tm -> Tm -> F.
Notation d0 := (vertex0 tm0).
Notation dens := (sp_pair_density beta exp a b tdiff d0).
Implicit Type vs : seq (vertex Tm).

Lemma bareE x : sd_bare exp a b beta x = sp_density beta exp a b x.
Proof. by rewrite /sd_bare /sp_density !mulNr. Qed.

Lemma foldl_sum (l : seq F) x : foldl +%R x l = x + \sum_(y <- l) y.
Proof. by elim: l x => [|y l ih] x /=; rewrite ?big_nil ?addr0 // ih big_cons addrA. Qed.

Lemma pair_positionsE vs k : k.1 != k.2 ->
  pair_positions tm0 vs k = (sp_of_type d0 vs k.1, sp_of_type d0 vs k.2).
Proof.
move=> ne; rewrite /pair_positions /sp_of_type.
have h l acc : foldl (fun p iv =>
      let v := nth d0 vs iv in
      if v_non v then p
      else if v_type v == k.1 then (rcons p.1 iv, p.2)
      else if v_type v == k.2 then (p.1, rcons p.2 iv) else p) acc l =
   (acc.1 ++ [seq i <- l | ~~ v_non (nth d0 vs i) && (v_type (nth d0 vs i) == k.1)],
    acc.2 ++ [seq i <- l | ~~ v_non (nth d0 vs i) && (v_type (nth d0 vs i) == k.2)]).
  elim: l acc => [|i l ih] [p q] /=; first by rewrite !cats0.
  rewrite ih; case: (v_non _) => //=.
  case: (v_type (nth d0 vs i) =P k.1) => [->|n1] /=; first by rewrite (negbTE ne) cat_rcons.
  by case: ifP => //= _; rewrite cat_rcons.
by rewrite h.
Qed.

Lemma size_pairs vs k : size (sp_pairs d0 vs k) = (size (sp_of_type d0 vs k.1) * size (sp_of_type d0 vs k.2))%N.
Proof. by rewrite size_allpairs. Qed.

Lemma probE vs k : [seq sd_bare exp a b beta (tdiff (v_time (nth d0 vs i2)) (v_time (nth d0 vs i1))) |
   i1 <- sp_of_type d0 vs k.1, i2 <- sp_of_type d0 vs k.2] = map (dens vs) (sp_pairs d0 vs k).
Proof. by rewrite /sp_pairs map_allpairs; apply: eq_allpairs => i j; rewrite bareE. Qed.

Lemma sumE vs k : foldl +%R 0 (map (dens vs) (sp_pairs d0 vs k)) = sp_pair_sum beta exp a b tdiff d0 vs k.
Proof. by rewrite foldl_sum add0r big_map. Qed.

Lemma pickE (R : Type) (rdisc : seq F -> R -> nat) vs k rs : k.1 != k.2 ->
  (forall prob r, (0 < size prob)%N -> (rdisc prob r < size prob)%N) ->
  pick_pair tm0 beta exp a b tdiff rdisc vs k rs =
  if size (sp_pairs d0 vs k) == 0%N then Ok (None, rs)
  else if rs is r :: rs' then
    let idx := rdisc (map (dens vs) (sp_pairs d0 vs k)) r in
    Ok (Some (nth (0, 0)%N (sp_pairs d0 vs k) idx, sp_pair_sum beta exp a b tdiff d0 vs k), rs')
  else Diverge.
Proof.
move=> ne dok; rewrite /pick_pair pair_positionsE // size_pairs; case: ifP => // z.
rewrite probE sumE; case: rs => [|r rs] //=.
have := dok (map (dens vs) (sp_pairs d0 vs k)) r; rewrite size_map size_pairs lt0n z => /(_ isT).
set idx := rdisc _ _; move=> il.
have t0 : (0 < size (sp_of_type d0 vs k.2))%N by move: z; clear; case: (size (sp_of_type _ _ k.2)) => //; rewrite muln0.
by rewrite leqNgt ltn_divLR // il /= /sp_pairs (nth_pairs _ 0%N 0%N).
Qed.

Lemma mem_pairs vs k p : (p \in sp_pairs d0 vs k) =
  [&& (p.1 < size vs)%N, (p.2 < size vs)%N, ~~ v_non (nth d0 vs p.1), ~~ v_non (nth d0 vs p.2) &
      (v_type (nth d0 vs p.1) == k.1) && (v_type (nth d0 vs p.2) == k.2)].
Proof.
case: p => i j /=; rewrite /sp_pairs /=; apply/allpairsP/idP => [[[i' j'] /= []]|].
  rewrite !mem_filter !mem_iota !add0n /= => /andP[/andP[n1 t1] l1] /andP[/andP[n2 t2] l2] [-> ->].
  by rewrite l1 l2 n1 n2 t1 t2.
case/and5P => l1 l2 n1 n2 /andP[t1 t2]; exists (i, j); rewrite !mem_filter !mem_iota !add0n /=.
by rewrite l1 l2 n1 n2 t1 t2.
Qed.

Hypothesis dok : sp_dist_ok beta exp a b.

Lemma dens_gt0 vs p : 0 < dens vs p.
Proof. by case: dok => bp b0 an Z e; rewrite /sp_pair_density /sp_density ltr_paddr // addr_gt0. Qed.

Lemma sum_gt0 vs k p : p \in sp_pairs d0 vs k -> 0 < sp_pair_sum beta exp a b tdiff d0 vs k.
Proof.
rewrite /sp_pair_sum; elim: (sp_pairs _ _ _) => [|q l ih] //= _; rewrite big_cons ltr_paddr ?dens_gt0 //.
by apply: sumr_ge0 => i _; apply: ltW; apply: dens_gt0.
Qed.

Lemma coeffE x : beta * beta * sd_coeff_X exp a b beta x = beta * sp_integral beta exp a b.
Proof.
case: dok => bp b0 an Z e; have bn : beta != 0 by rewrite gt_eqF.
by rewrite /sd_coeff_X /sd_coeffX /sp_integral mulNr; apply: coeff_field.
Qed.

End Choice.

Lemma simple_all (F : numFieldType) (Tm : eqType) (U : seq (vdef F)) nf (d : vertex Tm) vs0 vs req :
  (forall x, x \in req -> sp_state (nth d vs0 x.1) = sp_state (nth d vs x.1)) \/
  (forall x, x \in req -> sp_state (nth d vs0 x.1) = x.2) -> simple U d nf vs0 vs req.
Proof.
move=> h fl fll; rewrite /sp_changes; apply/orP; case: h => h; [left | right]; rewrite all_filter;
 apply/allP => c /flattenP [l /mapP [x xr ->]] /mapP [r _ ->] /=; by rewrite h // eqxx implybT.
Qed.

Lemma two_nth (Tm : eqType) (d : vertex Tm) vs p q s t i : (i < size vs)%N -> p != q ->
  nth d (sp_flip d vs [:: (p, s); (q, t)]) i =
  if i == p then sp_set (nth d vs p) s else if i == q then sp_set (nth d vs q) t else nth d vs i.
Proof.
move=> il pq; rewrite (nth_map 0%N) ?size_iota // nth_iota // add0n /= !inE.
case: (i =P p) => [->|ip] /=; first by rewrite eqxx.
case: (i =P q) => [->|iq] /=; last by [].
by rewrite (negbTE pq) eqxx.
Qed.

(* ------------------------------------------------------------------ C70 *)

(* boost::random::discrete_distribution returns an index of the list of probabilities *)
Definition discrete_ok (F R : Type) (rdisc : seq F -> R -> nat) : Prop :=
  forall prob r, (0 < size prob)%N -> (rdisc prob r < size prob)%N.

(* The pair to be removed is drawn, with the density of its time difference as probability,
   from the list of all pairs of interacting vertices of the two types, each once; if there is
   none, no random number is used. *)
Theorem C70_choice :
  forall (F : numFieldType) (Tm : eqType) (tm0 : Tm) (beta : F) (exp : F -> F) (a b : F)
         (tdiff : Tm -> Tm -> F) (R : Type) (rdisc : seq F -> R -> nat) (vs : seq (vertex Tm))
         (k : nat * nat) (rs : seq R),
    k.1 != k.2 -> discrete_ok rdisc ->
    exists L : seq (nat * nat),
    [/\ uniq L,
        forall p, (p \in L) = [&& (p.1 < size vs)%N, (p.2 < size vs)%N, ~~ v_non (nth (vertex0 tm0) vs p.1),
          ~~ v_non (nth (vertex0 tm0) vs p.2) &
          (v_type (nth (vertex0 tm0) vs p.1) == k.1) && (v_type (nth (vertex0 tm0) vs p.2) == k.2)] &
        let w p := sp_density beta exp a b (tdiff (v_time (nth (vertex0 tm0) vs p.2)) (v_time (nth (vertex0 tm0) vs p.1))) in
        pick_pair tm0 beta exp a b tdiff rdisc vs k rs =
        if size L == 0%N then Ok (None, rs)
        else if rs is r :: rs' then Ok (Some (nth (0, 0)%N L (rdisc [seq w p | p <- L] r), \sum_(p <- L) w p), rs')
        else Diverge].
Proof.
move=> F Tm tm0 beta exp a b tdiff R rdisc vs k rs ne dok; exists (sp_pairs (vertex0 tm0) vs k); split.
- by apply: allpairs_uniq => [||[i j] [i' j'] _ _ [-> ->]] //; rewrite filter_uniq // iota_uniq.
- exact: mem_pairs.
exact: pickE.
Qed.
Print Assumptions C70_choice.

(* An insertion of two waiting vertices of different types: accepted exactly when the random
   number is below |W'/W| beta Z / F(vs') us^2. *)
Theorem C70_insertion :
  forall (F : numFieldType) (Tm : eqType) (ani : F) (G0 : sop Tm -> sop Tm -> F) (U : seq (vdef F))
         (x0 : sop Tm) (nf : nat) (tm0 : Tm) (junk : fmat F) (beta us : F) (exp : F -> F) (a b : F)
         (R : Type) (rval : R -> F) (tdiff : Tm -> Tm -> F) (rdisc : seq F -> R -> nat)
         (s : sub F Tm) (p : nat) (r1 r2 : R) (rs : seq R),
    let v0 := nth (vertex0 tm0) (su_v s) p in
    let v1 := nth (vertex0 tm0) (su_v s) p.+1 in
    sp_types_ok U ani nf -> (forall r, 0 <= rval r) -> discrete_ok rdisc -> sp_dist_ok beta exp a b -> 0 < us ->
    reach ani G0 U x0 nf tm0 junk s -> su_trying s -> (p.+1 < size (su_v s))%N ->
    v_non v0 -> v_non v1 -> v_type v0 != v_type v1 ->
    v_non (nth (vertex0 tm0) (su_v0 s) p) -> v_non (nth (vertex0 tm0) (su_v0 s) p.+1) ->
    (v_af v0 < vd_naf (sp_def U v0))%N -> (v_af v1 < vd_naf (sp_def U v1))%N ->
    let vs' := sp_flip (vertex0 tm0) (su_v s) [:: (p, Some (v_af v0)); (p.+1, Some (v_af v1))] in
    let go := rval r2 < sp_pair_ins_rate G0 U x0 nf beta us exp a b tdiff (vertex0 tm0) (su_v s) vs' (p, p.+1) in
    exists2 s2, insertion_step2 ani U tm0 junk beta exp a b rval tdiff rdisc s p us (r1 :: r2 :: rs) =
        Ok (if go then weight G0 U x0 nf vs' / weight G0 U x0 nf (su_v s) else 1, s2, rs) &
      [/\ reach ani G0 U x0 nf tm0 junk s2, su_trying s2, su_v s2 = (if go then vs' else su_v s) & su_v0 s2 = su_v0 s].
Proof.
move=> F Tm ani G0 U x0 nf tm0 junk beta us exp a b R rval tdiff rdisc s p r1 r2 rs v0 v1 tok rpos dok sok upos re tr pl
  nv0 nv1 ne n0 n1 a0 a1 vs'; cbv zeta.
have pl0 : (p < size (su_v s))%N by apply: ltnW.
have pne : p != p.+1 by rewrite -{1}[p]addn0 -addn1 eqn_add2l.
have pn : (p.+1 == p) = false by rewrite eq_sym (negbTE pne).
have val : valid_req U (vertex0 tm0) (su_v s) [:: (p, Some (v_af v0)); (p.+1, Some (v_af v1))].
  by rewrite /valid_req /= inE pne pl0 pl a0 a1.
have sim : simple U (vertex0 tm0) nf (su_v0 s) (su_v s) [:: (p, Some (v_af v0)); (p.+1, Some (v_af v1))].
  by apply: simple_all; left=> x; rewrite !inE => /orP [] /eqP -> /=; rewrite /sp_state ?n0 ?n1 -/v0 -/v1 ?nv0 ?nv1.
have [s1 [d [f [u [e e1 er dec]]]]] := flip_step tok rpos re tr val sim.
rewrite /insertion_step2 /= addn0 addn1 -/v0 -/v1 e /= e1 /corr_insertion2 -/v0 -/v1.
have nthn : nth (vertex0 tm0) (set_nth (vertex0 tm0) (su_v s) p (set_interacting v0)) p.+1 = v1.
  by rewrite nth_set_nth /= pn.
rewrite nthn.
have -> : set_nth (vertex0 tm0) (set_nth (vertex0 tm0) (su_v s) p (set_interacting v0)) p.+1 (set_interacting v1) = vs'.
  apply: (@eq_from_nth _ (vertex0 tm0)).
    by rewrite !size_set_nth size_sp_flip (maxn_idPr pl0) (maxn_idPr pl).
  move=> i; rewrite !size_set_nth (maxn_idPr pl0) (maxn_idPr pl) => il.
  rewrite two_nth // !nth_set_nth /= /set_interacting.
  by case: (i =P p.+1) => [->|_]; [rewrite pn | rewrite nth_set_nth].
rewrite pickE //=.
have t0 : v_type (nth (vertex0 tm0) vs' p) = v_type v0 by rewrite two_nth // eqxx.
have t1 : v_type (nth (vertex0 tm0) vs' p.+1) = v_type v1 by rewrite two_nth // eqxx pn.
have pin : (p, p.+1) \in sp_pairs (vertex0 tm0) vs' (v_type v0, v_type v1).
  by rewrite mem_pairs /= size_sp_flip pl0 pl t0 t1 !eqxx !two_nth // !eqxx pn.
have Fp := sum_gt0 tdiff sok pin.
have -> : (size (sp_pairs (vertex0 tm0) vs' (v_type v0, v_type v1)) == 0%N) = false.
  by move: pin; clear; case: (sp_pairs _ _ _).
case: (nth (0%N, 0%N) _ _) => ? ? /=; rewrite coeffE //.
set c := beta * _ / _.
have Zp : 0 < sp_integral beta exp a b by case: sok.
have bp : 0 < beta by case: sok.
have c0 : 0 <= c by rewrite ltW // divr_gt0 // mulr_gt0.
have u2 : 0 < us ^+ 2 by rewrite exprn_gt0.
have eA : sp_pair_ins_rate G0 U x0 nf beta us exp a b tdiff (vertex0 tm0) (su_v s) vs' (p, p.+1) = `|d * f * u * c * us ^+ 2|.
  rewrite er -/vs' /sp_pair_ins_rate /= t0 t1 -/c.
  by rewrite [RHS]normrM [X in _ = X * _]normrM (ger0_norm c0) (gtr0_norm u2).
have nz : d * f * u * c * us ^+ 2 != 0 -> d * f * u != 0.
  by rewrite !mulf_eq0 !negb_or => /andP[/andP[/andP[/andP[-> ->] ->] _] _].
by have [s2 e2 [r2' t2 v2 v02]] := dec _ _ (r2 :: rs) eA nz; exists s2.
Qed.
Print Assumptions C70_insertion.

(* A removal: the pair of types and the pair of vertices from a random number each; accepted
   exactly when the next random number is below |W'/W| F(vs)/(beta Z) / us^2. *)
Theorem C70_removal :
  forall (F : numFieldType) (Tm : eqType) (ani : F) (G0 : sop Tm -> sop Tm -> F) (U : seq (vdef F))
         (x0 : sop Tm) (nf : nat) (tm0 : Tm) (junk : fmat F) (beta us : F) (exp : F -> F) (a b : F)
         (R : Type) (rval : R -> F) (ridx : nat -> R -> nat) (tdiff : Tm -> Tm -> F) (rdisc : seq F -> R -> nat)
         (pairs : seq (nat * nat)) (s : sub F Tm) (r1 r2 r3 : R) (rs : seq R),
    let k := nth (0, 0)%N pairs (ridx (size pairs) r1) in
    let L := sp_pairs (vertex0 tm0) (su_v s) k in
    let p := nth (0, 0)%N L (rdisc [seq sp_pair_density beta exp a b tdiff (vertex0 tm0) (su_v s) q | q <- L] r2) in
    let req := [:: (p.1, None); (p.2, None)] in
    sp_types_ok U ani nf -> random_ok rval ridx -> discrete_ok rdisc -> sp_dist_ok beta exp a b -> 0 < us ->
    reach ani G0 U x0 nf tm0 junk s -> su_trying s ->
    (0 < size pairs)%N -> k.1 != k.2 -> (0 < size L)%N ->
    simple U (vertex0 tm0) nf (su_v0 s) (su_v s) req ->
    let vs' := sp_flip (vertex0 tm0) (su_v s) req in
    let go := rval r3 < sp_pair_rem_rate G0 U x0 nf beta us exp a b tdiff (vertex0 tm0) (su_v s) vs' p in
    exists2 s2, removal_step2 ani U tm0 junk beta exp a b rval ridx tdiff rdisc pairs s us (r1 :: r2 :: r3 :: rs) =
        Ok (if go then weight G0 U x0 nf vs' / weight G0 U x0 nf (su_v s) else 1, s2, rs) &
      [/\ reach ani G0 U x0 nf tm0 junk s2, su_trying s2, su_v s2 = (if go then vs' else su_v s) & su_v0 s2 = su_v0 s].
Proof.
move=> F Tm ani G0 U x0 nf tm0 junk beta us exp a b R rval ridx tdiff rdisc pairs s r1 r2 r3 rs k L p req
  tok [rpos rok] dok sok upos re tr ps ne Lp sim vs'; cbv zeta.
have kl := rok _ r1 ps.
have pin : p \in L by apply: mem_nth; rewrite -(size_map (sp_pair_density beta exp a b tdiff (vertex0 tm0) (su_v s))); apply: dok; rewrite size_map.
move: (pin); rewrite mem_pairs => /and5P [pl0 pl1 n0 n1 /andP[/eqP t0 /eqP t1]].
have pne : p.1 != p.2 by apply: contraNneq ne => h; rewrite -t0 -t1 h.
have val : valid_req U (vertex0 tm0) (su_v s) req by rewrite /valid_req /= inE pne pl0 pl1.
have [s1 [d [f [u [e e1 er dec]]]]] := flip_step tok rpos re tr val sim.
have Fp := sum_gt0 tdiff sok pin.
rewrite /removal_step2 /pick_removed2 (gtn_eqF ps) [draw _]/= obOk [X in if X then _ else _]leqNgt kl [~~ true]/= -/k pickE //.
rewrite -/L (gtn_eqF Lp) obOk /= -/p (surjective_pairing p) /= -/req e /=.
rewrite coeffE // exprVn.
set c := _ / (beta * _).
have Zp : 0 < sp_integral beta exp a b by case: sok.
have bp : 0 < beta by case: sok.
have c0 : 0 <= c by rewrite ltW // divr_gt0 // mulr_gt0.
have u2 : 0 < us ^+ 2 by rewrite exprn_gt0.
have eA : sp_pair_rem_rate G0 U x0 nf beta us exp a b tdiff (vertex0 tm0) (su_v s) vs' p = `|d * f * u * c * (us ^+ 2)^-1|.
  rewrite er -/vs' /sp_pair_rem_rate t0 t1 -surjective_pairing -/c.
  by rewrite [RHS]normrM [X in _ = X * _]normrM (ger0_norm c0) normfV (gtr0_norm u2).
have nz : d * f * u * c * (us ^+ 2)^-1 != 0 -> d * f * u != 0.
  by rewrite !mulf_eq0 !negb_or => /andP[/andP[/andP[/andP[-> ->] ->] _] _].
by have [s2 e2 [r2' t2 v2 v02]] := dec _ _ (r3 :: rs) eA nz; exists s2.
Qed.
Print Assumptions C70_removal.

(* Detailed balance of the two moves; and the removal leads back. *)
Theorem C70_balance :
  forall (F : numFieldType) (Tm : eqType) (G0 : sop Tm -> sop Tm -> F) (U : seq (vdef F))
         (x0 : sop Tm) (nf : nat) (tm0 : Tm) (beta us : F) (exp : F -> F) (a b : F) (tdiff : Tm -> Tm -> F)
         (np : nat) (vs : seq (vertex Tm)) (p q : nat),
    let v0 := nth (vertex0 tm0) vs p in
    let v1 := nth (vertex0 tm0) vs q in
    sp_dist_ok beta exp a b -> 0 < us -> (0 < np)%N -> (p < size vs)%N -> (q < size vs)%N -> p != q ->
    v_non v0 -> v_non v1 -> weight G0 U x0 nf vs != 0 ->
    let vs' := sp_flip (vertex0 tm0) vs [:: (p, Some (v_af v0)); (q, Some (v_af v1))] in
    [/\ sp_target G0 U x0 nf us vs *
          sp_propose_pair U beta exp a b tdiff np (nth (vertex0 tm0) vs' p) (nth (vertex0 tm0) vs' q) *
          Num.min 1 (sp_pair_ins_rate G0 U x0 nf beta us exp a b tdiff (vertex0 tm0) vs vs' (p, q)) =
        sp_target G0 U x0 nf us vs' *
          sp_propose_pair_rem beta exp a b tdiff np (vertex0 tm0) vs' (p, q) *
          Num.min 1 (sp_pair_rem_rate G0 U x0 nf beta us exp a b tdiff (vertex0 tm0) vs' vs (p, q)),
        (p, q) \in sp_pairs (vertex0 tm0) vs' (v_type v0, v_type v1) &
        sp_flip (vertex0 tm0) vs' [:: (p, None); (q, None)] = vs].
Proof.
move=> F Tm G0 U x0 nf tm0 beta us exp a b tdiff np vs p q v0 v1 sok upos npp pl ql pq n0 n1 w0 vs'.
have qp : (q == p) = false by rewrite eq_sym (negbTE pq).
have e0 : nth (vertex0 tm0) vs' p = sp_set v0 (Some (v_af v0)) by rewrite two_nth // eqxx.
have e1 : nth (vertex0 tm0) vs' q = sp_set v1 (Some (v_af v1)) by rewrite two_nth // eqxx qp.
have pin : (p, q) \in sp_pairs (vertex0 tm0) vs' (v_type v0, v_type v1).
  by rewrite mem_pairs /= size_sp_flip pl ql e0 e1 /= !eqxx.
have ev : vs' = sp_flip (vertex0 tm0) (sp_flip (vertex0 tm0) vs [:: (p, Some (v_af v0))]) [:: (q, Some (v_af v1))].
  apply: (@eq_from_nth _ (vertex0 tm0)); rewrite !size_sp_flip // => i il.
  rewrite two_nth // flip1_nth ?size_sp_flip // !flip1_nth // qp.
  by case: (i =P p) => [->|_] //; rewrite (negbTE pq).
split=> //.
  have eO : sp_order vs' = (sp_order vs).+2.
    by rewrite ev order_flip_on ?size_sp_flip ?flip1_nth ?qp // order_flip_on.
  have eP : \prod_(v <- vs' | ~~ v_non v) ((vd_naf (sp_def U v))%:R : F)^-1 =
      (vd_naf (sp_def U v1))%:R^-1 * ((vd_naf (sp_def U v0))%:R^-1 * \prod_(v <- vs | ~~ v_non v) (vd_naf (sp_def U v))%:R^-1).
    by rewrite ev target_on ?size_sp_flip ?flip1_nth ?qp // target_on.
  rewrite /sp_target eO eP; clear eO eP ev.
  rewrite /sp_propose_pair /sp_propose_pair_rem /sp_pair_ins_rate /sp_pair_rem_rate /sp_pair_density /= e0 e1.
  rewrite (_ : sp_def U (sp_set v0 _) = sp_def U v0) // (_ : sp_def U (sp_set v1 _) = sp_def U v1) // -/v0 -/v1.
  rewrite (_ : v_type (sp_set v0 _) = v_type v0) // (_ : v_type (sp_set v1 _) = v_type v1) //.
  have Fp := sum_gt0 tdiff sok pin.
  have Dp := dens_gt0 tm0 tdiff sok vs' (p, q); rewrite /sp_pair_density /= e0 e1 in Dp.
  case: (altP (weight G0 U x0 nf vs' =P 0)) => [->|w1].
    by rewrite mul0r normr0 !mul0r /Order.min ltr10 mulr0.
  have [bp b0 an Zp _] := sok.
  set Fs := sp_pair_sum _ _ _ _ _ _ _ _ in Fp *; set D := sp_density _ _ _ _ _ in Dp *; set Z := sp_integral _ _ _ _ in Zp *.
  set q0 := (vd_naf _)%:R^-1; set q1 := (vd_naf _)%:R^-1; set P := \prod_(v <- vs | _) _.
  have npn : np%:R != 0 :> F by rewrite pnatr_eq0 -lt0n.
  have ap : 0 < `|weight G0 U x0 nf vs| by rewrite normr_gt0.
  have bp' : 0 < `|weight G0 U x0 nf vs'| by rewrite normr_gt0.
  have nz (x : F) : 0 < x -> x != 0 by move=> h; rewrite gt_eqF.
  rewrite !normf_div.
  have -> : `|weight G0 U x0 nf vs| / `|weight G0 U x0 nf vs'| * (Fs / (beta * Z)) / us ^+ 2 =
     (`|weight G0 U x0 nf vs'| / `|weight G0 U x0 nf vs| * (beta * Z / Fs) * us ^+ 2)^-1.
    move/nz: ap; move/nz: bp'; move/nz: Fp; move/nz: Zp; move/nz: bp; move/nz: upos; clear.
    move: `|weight _ _ _ _ _| `|weight _ _ _ _ _| Fs Z => A B fs Z un bn Zn Fn Bn An.
    by field; rewrite An Bn Fn Zn bn un.
  apply: metropolis.
    by rewrite !mulr_gt0 ?invr_gt0 // exprn_gt0.
  rewrite !exprS expr0.
  move/nz: ap; move/nz: bp'; move/nz: Fp; move/nz: Zp; move/nz: bp; move/nz: upos; move: npn; clear.
  move: `|weight _ _ _ _ _| `|weight _ _ _ _ _| (us ^+ _) => A B X; move: Fs Z D q0 q1 P np%:R => Fs Z D q0 q1 P n nn un bn Zn Fn Bn An.
  by field; rewrite An Fn Zn bn nn.
apply: (@eq_from_nth _ (vertex0 tm0)); first by rewrite !size_sp_flip.
move=> i; rewrite !size_sp_flip => il; rewrite two_nth ?size_sp_flip // e0 e1.
have h (v : vertex Tm) : v_non v -> sp_set (sp_set v (Some (v_af v))) None = v.
  by case: v => [[[[t c] tm] non] u]; rewrite /v_non /= => ->.
case: (i =P p) => [->|ip]; first exact: h.
case: (i =P q) => [->|iq]; first exact: h.
by rewrite two_nth //; case: (i =P p) => // _; case: (i =P q).
Qed.
Print Assumptions C70_balance.

(* ---- the proposal ---- *)

Lemma rejection_ok (F : numFieldType) (R : Type) (rval : R -> F) (dist : F -> F) (m beta : F) (rs : seq R) x rs' :
  gen_rejection rval dist m beta rs = Ok (x, rs') <->
  exists (l : seq (R * R)) (r1 r2 : R),
    [/\ rs = flatten [seq [:: q.1; q.2] | q <- l] ++ r1 :: r2 :: rs',
        all (fun q => ~~ (rval q.2 < dist (beta * rval q.1) / m)) l,
        rval r2 < dist (beta * rval r1) / m & x = beta * rval r1].
Proof.
have me y : 1 / m * y = y / m by rewrite mul1r mulrC.
split.
  have [n] := ubnP (size rs); elim: n rs => // n ih [|r1 [|r2 rs]] //=.
  rewrite ltnS => /ltnW sz; case: ifP => h.
    by case=> <- <-; exists [::], r1, r2; split=> //; move: h; rewrite me.
  case/(ih rs sz) => l [q1 [q2 [e a lt ->]]].
  exists ((r1, r2) :: l), q1, q2; split=> //=; first by rewrite e.
  by rewrite a andbT; move: h; rewrite me => ->.
case=> l [r1 [r2 [-> a lt ->]]]; elim: l a => [|[q1 q2] l ih] /=.
  by move=> _; rewrite me lt.
by case/andP=> /negbTE h /ih; rewrite me h.
Qed.

(* Rejection sampling returns beta times the first random number whose partner is below the
   density divided by its maximum; all pairs before it were rejected; nothing else is used. *)
Theorem C70_rejection :
  forall (F : numFieldType) (R : Type) (rval : R -> F) (dist : F -> F) (m beta : F) (rs : seq R) (x : F) (rs' : seq R),
    gen_rejection rval dist m beta rs = Ok (x, rs') <->
    exists (l : seq (R * R)) (r1 r2 : R),
      [/\ rs = flatten [seq [:: q.1; q.2] | q <- l] ++ r1 :: r2 :: rs',
          all (fun q => ~~ (rval q.2 < dist (beta * rval q.1) / m)) l,
          rval r2 < dist (beta * rval r1) / m & x = beta * rval r1].
Proof. exact: rejection_ok. Qed.
Print Assumptions C70_rejection.

(* The density is symmetric and has its maximum, the bound used for the rejection, at zero;
   divided by the integral it is what operator() returns. *)
Theorem C70_density :
  forall (F : numFieldType) (exp : F -> F) (a b beta d : F),
    sp_dist_ok beta exp a b -> 0 < a -> (forall x y, exp (x + y) = exp x * exp y) -> exp 0 = 1 ->
    (forall x, x <= 0 -> exp x <= 1) -> 0 <= d -> d <= beta ->
    [/\ sd_norm exp a b beta d = sp_density beta exp a b d / sp_integral beta exp a b,
        sd_norm exp a b beta (beta - d) = sd_norm exp a b beta d,
        sd_norm exp a b beta d <= sd_norm exp a b beta 0 & 0 < sd_norm exp a b beta d].
Proof.
move=> F exp a b beta d ok ap ea e0 e1 d0 db; have [bp b0 an Zp ep] := ok.
have nE x : sd_norm exp a b beta x = sp_density beta exp a b x / sp_integral beta exp a b.
  by rewrite /sd_norm bareE /sd_coeff /sp_integral mulNr div1r mulrC.
rewrite !nE; split=> //.
- by rewrite /sp_density subKr [exp _ + exp _]addrC.
- rewrite ler_pmul2r ?invr_gt0 // /sp_density ler_add2r mulr0 subr0 oppr0 e0.
  have -> : exp (- (a * beta)) = exp (- (a * d)) * exp (- (a * (beta - d))).
    by rewrite -ea; congr exp; clear; ring.
  rewrite -subr_ge0.
  have -> : 1 + exp (- (a * d)) * exp (- (a * (beta - d))) - (exp (- (a * d)) + exp (- (a * (beta - d)))) =
     (1 - exp (- (a * d))) * (1 - exp (- (a * (beta - d)))).
    by move: (exp _) (exp _); clear => u w; ring.
  by rewrite mulr_ge0 // subr_ge0 e1 // oppr_le0 mulr_ge0 ?subr_ge0 // ltW.
rewrite divr_gt0 // /sp_density ltr_paddr // addr_gt0 //.
Qed.
Print Assumptions C70_density.

(* What an insertion of two vertices proposes: the pair of types, the first time, the time
   difference by rejection, and the states; types of density kind are an error. *)
Theorem C70_proposal :
  forall (F : numFieldType) (Tm : eqType) (U : seq (vdef F)) (density : nat -> bool) (beta : F) (exp : F -> F) (a b : F)
         (R : Type) (rval : R -> F) (ridx : nat -> R -> nat) (rtime : R -> Tm) (tadd : Tm -> F -> Tm)
         (pairs : seq (nat * nat)) (r1 r2 r3 r4 : R) (x : F) (rs rs' : seq R),
    let k := nth (0, 0)%N pairs (ridx (size pairs) r1) in
    (ridx (size pairs) r1 < size pairs)%N -> all (fun p => (p.1 < size U)%N && (p.2 < size U)%N) pairs ->
    gen_rejection rval (sd_norm exp a b beta) (sd_norm exp a b beta 0) beta rs = Ok (x, r3 :: r4 :: rs') ->
    gen_vertices2 U density beta exp a b rval ridx rtime tadd pairs (r1 :: r2 :: rs) =
    if density k.1 || density k.2 then Throw
    else Ok ([:: (k.1, ridx (vd_naf (nth (vdef0 F) U k.1)) r3, rtime r2, false, 0%N);
                 (k.2, ridx (vd_naf (nth (vdef0 F) U k.2)) r4, tadd (rtime r2) x, false, 0%N)], rs').
Proof.
move=> F Tm U density beta exp a b R rval ridx rtime tadd pairs r1 r2 r3 r4 x rs rs' k kl ok e.
have /andP[k1 k2] := all_nthP (0, 0)%N ok _ kl.
have p0 : (0 < size pairs)%N by case: (pairs) kl.
rewrite /gen_vertices2 (gtn_eqF p0) /= leqNgt kl /= -/k /gen_pair /= e /= leqNgt k1 /=.
by case: (density k.1) => //=; rewrite leqNgt k2 /=; case: (density k.2).
Qed.
Print Assumptions C70_proposal.

Lemma int32_zero : is_int32 0 && is_int32 (0 + 1).
Proof. by apply: int32_ok; [|move: two31_gt3; move: two31 => t; clear; lia]. Qed.

Lemma mymod_in (x beta : rat) : 0 < beta -> 0 <= x -> x < beta -> mymod x beta = Ok x.
Proof.
move=> b0 x0 xb; rewrite /mymod x0; have -> : truncq (x / beta) = 0.
  apply: trunc_unique; [exact: divr_ge0 (ltW b0) | exact: divr_ge0 (ltW b0) | by rewrite ltr_pdivr_mulr // mul1r].
have /andP[-> _] := int32_zero; rewrite mulr0 subr0; exact: erefl.
Qed.

Lemma mymod_below (x beta : rat) : 0 < beta -> x < 0 -> - beta < x -> mymod x beta = Ok (x + beta).
Proof.
move=> b0 x0 xb; rewrite /mymod (lt_geF x0); have nx : 0 <= - x / beta.
  by apply: divr_ge0 (ltW b0); rewrite oppr_ge0 ltW.
have -> : truncq (- x / beta) = 0.
  by apply: (@trunc_unique _ 0 nx nx); rewrite ltr_pdivr_mulr // mul1r ltr_oppl.
have -> := int32_zero; rewrite mulr1; exact: erefl.
Qed.

(* The times: the second one lies in the interval, and the time difference computed from the
   two is the one that was drawn. *)
Theorem C70_times :
  forall t d beta : rat, 0 < beta -> 0 <= t -> t < beta -> 0 <= d -> d < beta ->
    exists u, [/\ mymod (t + d) beta = Ok u, 0 <= u, u < beta & mymod (u - t) beta = Ok d].
Proof.
move=> t d beta b0 t0 tb d0 db; have [lt|ge] := ltP (t + d) beta.
  exists (t + d); split=> //; [apply: mymod_in => // | |].
  - exact: addr_ge0.
  - exact: addr_ge0.
  by rewrite [t + d]addrC addrK; apply: mymod_in.
have u0 : 0 <= t + d - beta by rewrite subr_ge0.
have ub : t + d - beta < beta by rewrite ltr_subl_addr; apply: ltr_add.
exists (t + d - beta); split=> //.
  apply: mymod_one_pos; first exact: addr_ge0.
  apply: trunc_unique; first by apply: divr_ge0 (ltW b0); apply: addr_ge0.
    by rewrite ler_pdivl_mulr // mul1r.
  by rewrite ltr_pdivr_mulr // intrD mulrDl mul1r; apply: ltr_add.
have -> : t + d - beta - t = d - beta by clear; ring.
rewrite mymod_below //; first by rewrite subrK.
  by rewrite subr_lt0.
rewrite ltr_subr_addl subrr lt_neqAle d0 andbT eq_sym; apply/eqP => dz.
by move: ge; rewrite dz addr0 leNgt tb.
Qed.
Print Assumptions C70_times.

(* ------------------------------------------------------------------ C71 *)

Section Valid.
Variable qns : seq (seq (seq int)).
Notation n := (size qns).
Definition q_ v : seq int := nth [::] (nth [::] qns v) 0.
Definition dim := size (q_ 0).
(* every type has a first quantum number, all of the same length *)
Definition qns_ok : bool := (0 < n)%N && all (fun l => (0 < size l)%N && (size (nth [::] l 0) == dim)) qns.
Hypothesis ok : qns_ok.
Notation can := (fun p : nat * nat =>
  [&& ~~ is_all_zero (q_ p.1), ~~ is_all_zero (q_ p.2) & is_all_zero (add_qn (q_ p.1) (q_ p.2))]).

Lemma qn_ok v : (v < n)%N -> qn_of qns v = Some (q_ v) /\ size (q_ v) = dim.
Proof.
move=> vl; have /andP[_ /all_nthP h] := ok; have /andP[s /eqP e] := h [::] v vl.
by split=> //; rewrite /qn_of /q_; case: (nth _ _ _) s.
Qed.

Lemma innerE v1 l (acc : pair_state) : (v1 < n)%N -> ~~ is_all_zero (q_ v1) -> all (fun v => v < n)%N l ->
  exists f : nat -> nat -> bool, foldl (find_inner qns v1 (q_ v1)) (Ok acc) l =
   Ok (acc.1 ++ [seq p <- [seq (v1, v2) | v2 <- l] | (p.1 < p.2)%N && can p], f) /\
   forall i j, f i j = if [&& i == v1, j \in l & ~~ is_all_zero (q_ j)] then can (i, j) else acc.2 i j.
Proof.
move=> v1l z1; elim: l acc => [|v2 l ih] acc /=.
  by move=> _; exists acc.2; rewrite cats0 -surjective_pairing; split=> // i j; rewrite andbF.
case/andP=> v2l ll; have [e2 s2] := qn_ok v2l; have [_ s1] := qn_ok v1l.
rewrite e2.
case: ifP => z2.
  have [f [-> hf]] := ih acc ll; exists f; split; first by rewrite z1 /= andbF.
  by move=> i j; rewrite hf inE; case: (j =P v2) => [->|] //=; rewrite z2 !andbF.
rewrite s1 s2 eqxx /=; set st := (X in foldl _ (Ok X) l).
have [f [-> hf]] := ih st ll; exists f; split.
  by rewrite z1 ?z2 /=; case: ifP => //= _; rewrite cat_rcons.
move=> i j; rewrite hf inE /=; case: (i =P v1) => //= ->.
case: (j =P v2) => [->|] //=; rewrite z2 z1 /=.
by case: ifP.
Qed.

Lemma outerE l (acc : pair_state) : all (fun v => v < n)%N l ->
  exists f : nat -> nat -> bool, foldl (find_outer qns) (Ok acc) l =
   Ok (acc.1 ++ [seq p <- [seq (v1, v2) | v1 <- l, v2 <- iota 0 n] | (p.1 < p.2)%N && can p], f) /\
   forall i j, f i j = if [&& i \in l, (j < n)%N, ~~ is_all_zero (q_ i) & ~~ is_all_zero (q_ j)] then can (i, j) else acc.2 i j.
Proof.
elim: l acc => [|v1 l ih] acc /=.
  by move=> _; exists acc.2; rewrite cats0 -surjective_pairing; split=> // i j.
case/andP=> v1l ll; have [e1 s1] := qn_ok v1l; rewrite filter_cat e1.
case: ifP => z1.
  have none l' : [seq p <- [seq (v1, v2) | v2 <- l'] | (p.1 < p.2)%N && can p] = [::].
    by elim: l' => //= v l' ->; rewrite z1 /= andbF.
  have [f [-> hf]] := ih acc ll; exists f; split.
    by congr (Ok (_ ++ _, _)); rewrite none.
  by move=> i j; rewrite hf inE; case: (i =P v1) => [->|] //=; rewrite z1 !andbF.
have ai : all (fun v => v < n)%N (iota 0 n) by apply/allP => v; rewrite mem_iota.
have [g [e hg]] := innerE acc v1l (negbT z1) ai.
rewrite e; set st := (X in foldl _ (Ok X) l).
have [f [-> hf]] := ih st ll; exists f; split; first by rewrite /= catA.
move=> i j; rewrite hf inE /= hg mem_iota add0n /=.
case: (i =P v1) => [->|] //=; rewrite z1 /=; case: (v1 \in l) => //=.
by case: (j < n)%N => //=; case: (is_all_zero (q_ j)).
Qed.

Lemma cancel_seq (x y : seq int) : size x = size y ->
  is_all_zero (add_qn x y) = all (fun k => nth 0 x k == - nth 0 y k) (iota 0 (size x)).
Proof.
elim: x y => [|u x ih] [|v y] //= [e]; rewrite addr_eq0 -[1%N]addn0 iotaDl all_map -/(add_qn x y).
by congr andb; rewrite [LHS]ih //; apply: eq_all => k /=; rewrite add1n.
Qed.

Lemma canE v w : (v < n)%N -> (w < n)%N -> can (v, w) = sp_cancels qns v w.
Proof.
move=> vl wl; have [_ sv] := qn_ok vl; have [_ sw] := qn_ok wl.
rewrite /sp_cancels -/(q_ v) -/(q_ w) vl wl /= cancel_seq ?sv ?sw // /is_all_zero -has_predC.
case hv : (has _ (q_ v)) => //=; case c : (all _ (iota _ _)); last by rewrite andbF.
rewrite andbT; apply/negP => /allP z; move: hv => /(has_nthP 0) [k kl /negP]; apply.
have kd : k \in iota 0 dim by rewrite mem_iota add0n -sv.
have kw : (k < size (q_ w))%N by rewrite sw -sv.
by rewrite (eqP (allP c k kd)) (eqP (z _ (mem_nth 0 kw))) oppr0.
Qed.

Lemma cancels_sym v w : sp_cancels qns v w = sp_cancels qns w v.
Proof.
have [vl|vl] := ltnP v n; last by rewrite /sp_cancels !(leq_gtF vl) /= andbF.
have [wl|wl] := ltnP w n; last by rewrite /sp_cancels !(leq_gtF wl) /= andbF.
rewrite -!canE //=; case: (is_all_zero (q_ v)); case: (is_all_zero (q_ w)) => //=.
have [_ sv] := qn_ok vl; have [_ sw] := qn_ok wl; rewrite !cancel_seq ?sv ?sw //.
by apply: eq_all => k; rewrite -eqr_oppLR eq_sym.
Qed.

Lemma cancels_irr v : sp_cancels qns v v = false.
Proof.
have [vl|vl] := ltnP v n; last by rewrite /sp_cancels !(leq_gtF vl).
apply/negP => c; move: (c); rewrite -canE //= => /and3P[_ z _].
move: c => /and4P[_ _ _ /allP h]; case/negP: z; apply/(all_nthP 0) => k kl.
have := h k; rewrite mem_iota add0n kl => /(_ isT); rewrite -/(q_ v).
by move: (nth _ _ _); clear => x; lia.
Qed.

End Valid.

(* how often the pair of v and w, in either order, is listed *)
Definition listed (L : seq (nat * nat)) (v w : nat) : nat := count (fun p => (p == (v, w)) || (p == (w, v))) L.

(* The valid pairs: all v1 < v2 whose non-zero quantum numbers cancel, each once; the flags
   tell the same for both orders. *)
Theorem C71_valid_pairs :
  forall qns : seq (seq (seq int)), qns_ok qns ->
    exists L f, [/\ find_valid_pairs qns = Ok (L, f),
      forall v w, f v w = sp_cancels qns v w,
      uniq L, forall v w, ((v, w) \in L) = (v < w)%N && sp_cancels qns v w &
      forall v w, listed L v w = f v w].
Proof.
move=> qns ok; have ai : all (fun v => v < size qns)%N (iota 0 (size qns)) by apply/allP => v; rewrite mem_iota.
have n0 : (0 < size qns)%N by case/andP: ok.
rewrite /find_valid_pairs; have [-> _] := qn_ok ok n0.
have [f [-> hf]] := outerE ok ([::], fun _ _ => false) ai.
set L := [::] ++ _; exists L, f; rewrite {}/L /=; set L := filter _ _.
have fE v w : f v w = sp_cancels qns v w.
  rewrite hf mem_iota add0n /=; case vl : (v < _)%N; last by rewrite /sp_cancels vl.
  case wl : (w < _)%N; last by rewrite /sp_cancels vl wl.
  by rewrite -canE //=; do 2 case: (is_all_zero (q_ qns _)).
have uL : uniq L.
  rewrite filter_uniq //; apply: allpairs_uniq; rewrite ?iota_uniq //.
  by move=> [i j] [i' j'] _ _ [-> ->].
have mL v w : ((v, w) \in L) = (v < w)%N && sp_cancels qns v w.
  rewrite mem_filter; have -> : ((v, w) \in [seq (i, j) | i <- iota 0 (size qns), j <- iota 0 (size qns)]) = (v < size qns)%N && (w < size qns)%N.
    apply/allpairsP/andP => [[[i j] /= []]|[h1 h2]].
      by rewrite !mem_iota !add0n /= => h1 h2 [-> ->].
    by exists (v, w); rewrite !mem_iota !add0n.
  rewrite -!andbA; congr andb; case vl : (v < _)%N; last by rewrite /sp_cancels vl !andbF.
  case wl : (w < _)%N; last by rewrite /sp_cancels vl wl !andbF.
  by rewrite -canE // !andbT.
split=> // v w; rewrite fE /listed.
case: (ltngtP v w) => [h|h|->]; last 1 first.
- rewrite cancels_irr // (eq_count (a2 := pred1 (w, w))) => [|p]; last by rewrite orbb.
  by rewrite count_uniq_mem // mL ltnn.
- rewrite (eq_in_count (a2 := pred1 (v, w))) => [|p pL /=]; last first.
    case: eqP => //= _; apply/negbTE/eqP => pe; move: pL; rewrite pe mL => /andP[].
    by rewrite ltnNge (ltnW h).
  by rewrite count_uniq_mem // mL h.
rewrite (eq_in_count (a2 := pred1 (w, v))) => [|p pL /=]; last first.
  case: (p =P (v, w)) => //= pe; move: pL; rewrite pe mL => /andP[].
  by rewrite ltnNge (ltnW h).
by rewrite count_uniq_mem // mL h /= cancels_sym.
Qed.
Print Assumptions C71_valid_pairs.

(* Further pairs listed by the user: types outside the table are an error; otherwise every
   listed pair is added unless it or its reverse is there, so that each stays listed once. *)
Theorem C71_listed_pairs :
  forall (n : nat) (ps : seq (int * int)) (L : seq (nat * nat)) (f : nat -> nat -> bool),
    (forall v w, listed L v w = f v w) ->
    let inside (x : int) := (0 <= x) && (x < n%:Z) in
    if all (fun p => inside p.1 && inside p.2) ps then
      exists L' f', [/\ add_pairs n (flatten [seq [:: p.1; p.2] | p <- ps]) (L, f) = Ok (L', f'),
        prefix L L', forall v w, listed L' v w = f' v w &
        forall v w, f' v w = [|| f v w, (Posz v, Posz w) \in ps | (Posz w, Posz v) \in ps]]
    else add_pairs n (flatten [seq [:: p.1; p.2] | p <- ps]) (L, f) = Throw.
Proof.
move=> n ps L f once inside; elim: ps L f once => [|[x y] ps ih] L f once /=.
  by exists L, f; split=> //; [exact: prefix_refl | move=> v w; rewrite !orbF].
case: x => [v|v] //; case: y => [w|w]; rewrite ?andbF //=.
have -> : (inside v%:Z && inside w%:Z) = ~~ ((n <= v)%N || (n <= w)%N).
  by rewrite /inside; clear; lia.
case: ((n <= v)%N || (n <= w)%N) => //=.
have fs i j : f i j = f j i.
  have h : listed L i j = listed L j i by rewrite /listed; apply: eq_count => p; rewrite orbC.
  by move: h; rewrite !once; case: (f i j); case: (f j i).
case fvw : (~~ f v w).
  pose f1 (i j : nat) := if ((i == v) && (j == w)) || ((i == w) && (j == v)) then true else f i j.
  rewrite -/f1.
  have once1 i j : listed (rcons L (v, w)) i j = f1 i j.
    rewrite /listed -cats1 count_cat /= addn0 (once i j : count _ _ = _) /f1 !xpair_eqE.
    have -> : [|| (i == v) && (j == w) | (i == w) && (j == v)] = [|| (v == i) && (w == j) | (v == j) && (w == i)].
      by rewrite ![v == _]eq_sym ![w == _]eq_sym [(j == v) && _]andbC.
    case: ifP => h; last by rewrite addn0.
    have -> : f i j = false; last by [].
    by case/orP: h => /andP[/eqP <- /eqP <-]; [apply/negbTE | rewrite fs; apply/negbTE].
  have := ih _ _ once1; case: ifP => // _ [L' [f' [e pr on ff]]]; exists L', f'; split=> //.
    exact: (prefix_trans (prefix_rcons _ _) pr).
  move=> i j; rewrite ff /f1 !inE !xpair_eqE /=.
  rewrite (_ : (Posz i == Posz v) = (i == v)) // (_ : (Posz j == Posz w) = (j == w)) // (_ : (Posz j == Posz v) = (j == v)) // (_ : (Posz i == Posz w) = (i == w)) //.
  rewrite [(j == v) && _]andbC.
  by case: ((i == v) && (j == w)); case: ((i == w) && (j == v)) => //=; rewrite ?orbT // orbF.
have := ih _ _ once; case: ifP => // _ [L' [f' [e pr on ff]]]; exists L', f'; split=> //.
move=> i j; rewrite ff !inE !xpair_eqE.
rewrite (_ : (Posz i == Posz v) = (i == v)) // (_ : (Posz j == Posz w) = (j == w)) // (_ : (Posz j == Posz v) = (j == v)) // (_ : (Posz i == Posz w) = (i == w)) //.
case h1 : ((i == v) && (j == w)).
  by case/andP: h1 => /eqP -> /eqP ->; move/negbT: fvw; rewrite negbK => ->.
case h2 : ((j == v) && (i == w)) => //=.
by case/andP: h2 => /eqP -> /eqP ->; move/negbT: fvw; rewrite negbK fs => ->.
Qed.
Print Assumptions C71_listed_pairs.

(* ------------------------------------------------------------------ C72 *)

(* A pair of equal types: once the ratio is known, the correction factor cannot be computed and
   the insertion ends with an exception, whatever the configuration. *)
Theorem C72_same_type :
  forall (F : numFieldType) (Tm : eqType) (tm0 : Tm) (beta : F) (exp : F -> F) (a b : F)
         (R : Type) (tdiff : Tm -> Tm -> F) (rdisc : seq F -> R -> nat) (vs : seq (vertex Tm)) (p q : nat) (rs : seq R),
    v_type (nth (vertex0 tm0) vs p) = v_type (nth (vertex0 tm0) vs q) ->
    corr_insertion2 tm0 beta exp a b tdiff rdisc vs p q rs = Throw.
Proof.
move=> F Tm tm0 beta exp a b R tdiff rdisc vs p q rs e; rewrite /corr_insertion2 -e /pick_pair /pair_positions /=.
set ws := set_nth _ _ q _; set k := v_type _.
have h l (acc : seq nat * seq nat) : acc.2 = [::] -> (foldl (fun p iv =>
      let v := nth (vertex0 tm0) ws iv in
      if v_non v then p
      else if v_type v == k then (rcons p.1 iv, p.2)
      else if v_type v == k then (p.1, rcons p.2 iv) else p) acc l).2 = [::].
  by elim: l acc => [|i l ih] acc e0 //=; apply: ih; case: (v_non _) => //; case: (_ == _).
move: (h (iota 0 (size ws)) ([::], [::]) erefl); case: (foldl _ _ _) => x y /= ->.
by rewrite muln0.
Qed.
Print Assumptions C72_same_type.

(* a distribution with distinct values: exp is 1/2 below zero *)
Definition expP (x : [numFieldType of rat]) : [numFieldType of rat] := if x < 0 then r_ 1 2 else 1.
Definition tdiffP (t s : [eqType of nat]) : [numFieldType of rat] := ((t - s)%N)%:R.
Definition rdiscP (l : seq [numFieldType of rat]) (r : nat) : nat := 0.
Lemma dist_okP : sp_dist_ok (1 : [numFieldType of rat]) expP 1 1.
Proof. by split=> // x; rewrite /expP; case: ifP. Qed.
Lemma discrete_okP : discrete_ok rdiscP. Proof. by []. Qed.
Notation reach2 := (reach (F := [numFieldType of rat]) aniX GX U2 xX 2 0%N jX).

(* a session with two waiting vertices *)
Lemma waitingP (k0 k1 : nat) : (k0 < 2)%N -> (k1 < 2)%N -> exists s,
  [/\ reach2 s, su_trying s, su_v s = [:: (k0, 0, 5, true, 1); (k1, 0, 7, true, 2)]%N & su_v0 s = su_v s].
Proof.
move=> h0 h1.
have ok : all (fun v => v_type v < size U2)%N [:: (k0, 0, 5, true, 0); (k1, 0, 7, true, 0)]%N by rewrite /= h0 h1.
have [s e [i t v v0]] := init_ok tok2 (new_ok (F := [numFieldType of rat]) aniX GX U2 xX 2 0) (isT : ~~ su_trying (sub_new _ 2 0)) ok.
exists s; split; [by apply: R_init (R_new aniX GX U2 xX 2 0%N jX 0) _ _ e | exact: t | by rewrite v | exact: v0].
Qed.

(* A pair of equal types is accepted in update.double_vertex_update_pairs, and its insertion
   ends with an exception. *)
Theorem C72_same_type_refuted :
  exists (s : sub [numFieldType of rat] [eqType of nat]) (pairs : seq (nat * nat)) (f : nat -> nat -> bool),
    [/\ add_pairs (size U2) [:: 0; 0] ([::], fun _ _ => false) = Ok (pairs, f), pairs = [:: (0, 0)%N],
        reach2 s /\ su_trying s, [seq (v_type v, v_non v) | v <- su_v s] = [:: (0, true); (0, true)]%N &
        insertion_step2 aniX U2 0%N jX 1 expP 1 1 rvY tdiffP rdiscP s 0 1 [:: 7; 8]%N = Throw].
Proof.
have [s [re tr ev e0]] := waitingP (isT : (0 < 2)%N) (isT : (0 < 2)%N).
exists s; eexists _, _; split; [reflexivity | by [] | by [] | by rewrite ev |].
have val : valid_req U2 (vertex0 0%N) (su_v s) [:: (0, Some 0); (1, Some 0)]%N by rewrite ev.
have sim : simple U2 (vertex0 0%N) 2 (su_v0 s) (su_v s) [:: (0, Some 0); (1, Some 0)]%N.
  by apply: simple_all; left=> x _; rewrite e0.
have rpos : forall r : nat, 0 <= rvY r by [].
have [s1 [d [f [u [e e1 _ _]]]]] := flip_step tok2 rpos re tr val sim.
have er : [seq (0 + iv, Some (v_af (nth (vertex0 0%N) (su_v s) (0 + iv))))%N | iv <- iota 0 2] = [:: (0, Some 0); (1, Some 0)]%N by rewrite ev.
rewrite /insertion_step2 er e obOk C72_same_type //.
by rewrite e1 ev.
Qed.
Print Assumptions C72_same_type_refuted.

(* two interacting vertices of different types *)
Lemma weightP (u w : nat) : w2 [:: (0, 0, 5, false, u); (1, 0, 7, false, w)]%N != 0.
Proof.
rewrite /weight !big_ord_recl big_ord0 !big_cons big_nil !mulr1 mulf_neq0 //.
rewrite mulf_neq0 //.
  rewrite [size _]/= Prop_DetMat.det2; by vm_compute.
rewrite [size _]/= Prop_DetMat.det2; by vm_compute.
Qed.

(* the hypotheses of C70_insertion *)
Example C70_insertion_case : exists s,
  [/\ reach2 s, su_trying s, su_v s = [:: (0, 0, 5, true, 1); (1, 0, 7, true, 2)]%N, su_v0 s = su_v s &
      [/\ random_ok rvY riY, discrete_ok rdiscP & sp_dist_ok (1 : [numFieldType of rat]) expP 1 1]].
Proof.
have [s [re tr ev e0]] := waitingP (isT : (0 < 2)%N) (isT : (1 < 2)%N).
by exists s; split=> //; split; [exact: randomY | exact: discrete_okP | exact: dist_okP].
Qed.

(* the hypotheses of C70_removal: an idle state with two vertices, and a session *)
Example C70_removal_case : exists s,
  [/\ reach2 s, su_trying s, [seq (v_type v, v_non v) | v <- su_v s] = [:: (0, false); (1, false)]%N,
      sp_pairs (vertex0 0%N) (su_v s) (0, 1)%N = [:: (0, 1)%N] &
      simple U2 (vertex0 0%N) 2 (su_v0 s) (su_v s) [:: (0%N, None); (1%N, None)]].
Proof.
have ok : all (sp_vertex_ok (Tm := [eqType of nat]) U2) [:: (0, 0, 5, false, 1); (1, 0, 7, false, 2)]%N by [].
have [s e [re tr sv sg]] := C58_construct 0%N jX 0 tok2 ok isT (weightP 1 2).
have [s2 e2 [i2 t2 v2 v02]] := init_ok tok2 (reach_inv tok2 re) tr (isT : all (fun v => v_type v < size U2)%N [::]).
have ev : [seq (v_type v, v_non v) | v <- su_v s2] = [:: (0, false); (1, false)]%N.
  rewrite v2 /= cats0; move: sv; clear; rewrite /same_vertices.
  by case: (su_v s) => [|[[[[? ?] ?] ?] ?] [|[[[[? ?] ?] ?] ?] [|]]] //= [-> _ _ ->] [-> _ _ ->].
exists s2; split; [by apply: R_init re tr _ e2 | exact: t2 | exact: ev | |].
  move: ev; clear; rewrite /sp_pairs /sp_of_type.
  by case: (su_v s2) => [|[[[[? ?] ?] ?] ?] [|[[[[? ?] ?] ?] ?] [|]]] //= [-> ->] [-> ->].
by apply: simple_all; left=> x _; rewrite v02.
Qed.

(* the hypotheses of C70_balance *)
Example C70_balance_case :
  let vs : seq (vertex [eqType of nat]) := [:: (0, 0, 5, false, 1); (1, 0, 7, false, 2); (0, 1, 9, true, 3); (1, 0, 4, true, 4)]%N in
  [/\ v_non (nth (vertex0 0%N) vs 2), v_non (nth (vertex0 0%N) vs 3), w2 vs != 0 &
      sp_pairs (vertex0 0%N) vs (0, 1)%N = [:: (0, 1)%N]].
Proof. by split=> //; rewrite wt_ints; apply: weightP. Qed.

(* one rejected pair of random numbers, then an accepted one *)
Example C70_rejection_case :
  gen_rejection (fun r : nat => if r == 1%N then r_ 9 10 else r_ 1 10 : [numFieldType of rat])
    (fun x => x) 1 1 [:: 0; 1; 1; 0; 5]%N = Ok (r_ 9 10, [:: 5%N]).
Proof. by vm_compute. Qed.

Example C70_density_case :
  [/\ sp_dist_ok (1 : [numFieldType of rat]) (fun=> 1) 1 1, sd_norm (fun=> 1 : rat) 1 1 1 0 = r_ 3 1 &
      sd_norm expP 1 1 1 (r_ 1 2) = 1].
Proof. by split=> //; apply/eqP; vm_compute. Qed.

(* types 0 and 2 cancel, type 1 is neutral; the user adds the pair (1, 0) twice *)
Example C71_case :
  let qns : seq (seq (seq int)) := [:: [:: [:: 1; 0]]; [:: [:: 0; 0]]; [:: [:: -1; 0]]] in
  qns_ok qns /\
  (exists f, find_valid_pairs qns = Ok ([:: (0, 2)%N], f)) /\
  exists f, add_pairs 3 [:: 1; 0; 0; 1; 2; 0] ([:: (0, 2)%N], fun i j => sp_cancels qns i j) = Ok ([:: (0, 2); (1, 0)]%N, f).
Proof. by split; [|split]; [vm_compute | eexists; reflexivity | eexists; reflexivity]. Qed.

(* the hypotheses of C70_times, with a time difference beyond the end of the interval *)
Example C70_times_case : let t : rat := 2%:R in let d : rat := 5%:R / 2%:R in
  [/\ 0 <= t, t < 3%:R, d < 3%:R & 3%:R <= t + d].
Proof. by split; vm_compute. Qed.
