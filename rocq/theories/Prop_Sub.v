(* Property theorems: C26 - C31, C57, C58 (the submatrix update). *)
From mathcomp Require Import all_ssreflect ssralg ssrnum ssrint rat matrix.
From Verif Require Import Outcome MatLib MatSpec FormulaProofs SubModel SubSpec SubMath SubRows SubFlavor SubConf SubStep SubFinal SubProofs.

Set Implicit Arguments.
Unset Strict Implicit.
Unset Printing Implicit Defensive.

Import GRing.Theory Num.Theory.
Local Open Scope ring_scope.

(* ---- what the properties say ---- *)

Section Says.
Variables (F : numFieldType) (Tm : eqType) (ani : F).
Variable G0 : sop Tm -> sop Tm -> F.
Variable U : seq (vdef F).
Variable x0 : sop Tm.
Variable nf : nat.
Variable tm0 : Tm.
Variable junk : fmat F.
Notation d0 := (vertex0 tm0).
Notation wt := (weight G0 U x0 nf).

(* the vertices of a list, without their numbers *)
Definition same_vertices (vs ws : seq (vertex Tm)) : Prop :=
  [seq v.1 | v <- vs] = [seq v.1 | v <- ws].

(* The objects that a program can reach: it starts from an empty or a given configuration
   of interacting vertices of non-zero weight, opens sessions with new vertices of known
   types, tries requests, rejects them or accepts them (if they are simple and the new
   weight is not zero), closes sessions and recomputes. *)
Inductive reach : sub F Tm -> Prop :=
| R_new j : reach (sub_new Tm nf j)
| R_from j vs s : all (sp_vertex_ok U) vs -> all (fun v => ~~ v_non v) vs -> wt vs != 0 ->
    sub_from ani G0 U x0 nf j vs = Ok s -> reach s
| R_init s new s2 : reach s -> ~~ su_trying s -> all (fun v => v_type v < size U)%N new ->
    init_update ani G0 U x0 s new = Ok s2 -> reach s2
| R_accept s req s1 r s2 : reach s -> su_trying s -> valid_req U d0 (su_v s) req ->
    simple U d0 nf (su_v0 s) (su_v s) req -> try_spin_flip ani U s tm0 req = Ok (s1, r) ->
    wt (sp_flip d0 (su_v s) req) != 0 -> perform_spin_flip junk tm0 s1 req = Ok s2 -> reach s2
| R_reject s req s1 r s2 : reach s -> su_trying s -> valid_req U d0 (su_v s) req ->
    try_spin_flip ani U s tm0 req = Ok (s1, r) ->
    reject_spin_flip s1 = Ok s2 -> reach s2
| R_finalize s s2 : reach s -> finalize_update ani x0 s = Ok s2 -> reach s2
| R_recompute s s2 : reach s -> recompute_matrix ani G0 U x0 s = Ok s2 -> reach s2.

(* the operators of the rows of the stored matrix of a flavor *)
Definition row_ops (s : sub F Tm) (fl : nat) : seq (sop Tm * sop Tm * F) :=
  [seq (ar_ann r, ar_cre r, ar_alpha r) | r <- ia_rows (nth (inva_new F Tm) (su_A s) fl)].

Hypothesis tok : sp_types_ok U ani nf.

Lemma reach_inv s : reach s -> inv ani G0 U x0 nf s.
Proof.
elim=> {s} [j|j vs s ok it nz e|s new s2 _ hi tr tn e|s req s1 r s2 _ hi tr val sim e1 nz e2
  |s req s1 [[d f] u] s2 _ hi tr val e1 e2|s s2 _ hi e|s s2 _ hi e].
- exact: new_ok.
- by have [s' e' [h _ _]] := from_ok tok j ok it nz; move: e; rewrite e' => -[<-].
- by have [s' e' [h _ _ _]] := init_ok tok hi tr tn; move: e; rewrite e' => -[<-].
- have [s1' [d [f [u [e' td]]]]] := try_ok tok junk hi tr val sim.
  move: e1; rewrite e' => -[h1 _]; subst s1'.
  by have [s' e3 [h _ _ _]] := perform_ok hi tr val td nz; move: e2; rewrite e3 => -[<-].
- have td := try_mixed tok junk hi tr val e1.
  by have [s' e3 h] := mreject_ok hi td; move: e2; rewrite e3 => -[<-]; apply: inv_perm hi h.
- case cov : (all (fun v => v_non v ==> sp_covers U nf v) (su_v s)).
    by have [s' e' [h _ _ _]] := finalize_ok tok tm0 hi cov; move: e; rewrite e' => -[<-].
  by move: e; rewrite (finalize_throw tm0 hi (negbT cov)).
- case tr : (su_trying s); first by move: e; rewrite (recompute_throw _ _ _ _ tr).
  by have [s' e' [h _ _ _ _]] := recompute_ok tok hi (negbT tr); move: e; rewrite e' => -[<-].
Qed.

End Says.

(* ------------------------------------------------------------------ C26 *)

(* Inside a session, for every history: the three returned factors multiply to the ratio of
   the weights after and before the flip. *)
Theorem C26_spin_flip_ratio_partial :
  forall (F : numFieldType) (Tm : eqType) (ani : F) (G0 : sop Tm -> sop Tm -> F) (U : seq (vdef F))
         (x0 : sop Tm) (nf : nat) (tm0 : Tm) (junk : fmat F) (s : sub F Tm) (req : request),
    sp_types_ok U ani nf -> reach ani G0 U x0 nf tm0 junk s -> su_trying s ->
    valid_req U (vertex0 tm0) (su_v s) req ->
    simple U (vertex0 tm0) nf (su_v0 s) (su_v s) req ->
    weight G0 U x0 nf (su_v s) != 0 /\
    exists s1 d f u,
      try_spin_flip ani U s tm0 req = Ok (s1, (d, f, u)) /\
      d * f * u = weight G0 U x0 nf (sp_flip (vertex0 tm0) (su_v s) req) / weight G0 U x0 nf (su_v s).
Proof.
move=> F Tm ani G0 U x0 nf tm0 junk s req tok re tr val sim.
have hi := reach_inv tok re; have nz := i_w hi; split=> //.
have [s1 [d [f [u [e td]]]]] := try_ok tok junk hi tr val sim.
by exists s1, d, f, u; split=> //; rewrite -(td_w td) mulfK.
Qed.
Print Assumptions C26_spin_flip_ratio_partial.

(* The same for a request that on one flavor switches some vertices back to their state
   of the start of the session and others away from it, if the configuration with the
   former switched back alone has a weight. *)
Theorem C26_mixed_ratio_partial :
  forall (F : numFieldType) (Tm : eqType) (ani : F) (G0 : sop Tm -> sop Tm -> F) (U : seq (vdef F))
         (x0 : sop Tm) (nf : nat) (tm0 : Tm) (junk : fmat F) (s : sub F Tm) (req : request),
    let back := sp_back U (vertex0 tm0) nf (su_v0 s) (su_v s) in
    let away := sp_away U (vertex0 tm0) nf (su_v0 s) (su_v s) in
    sp_types_ok U ani nf -> reach ani G0 U x0 nf tm0 junk s -> su_trying s ->
    valid_req U (vertex0 tm0) (su_v s) req ->
    all (fun x => back x || away x) req ->
    weight G0 U x0 nf (sp_flip (vertex0 tm0) (su_v s) [seq x <- req | back x]) != 0 ->
    exists s1 d f u,
      try_spin_flip ani U s tm0 req = Ok (s1, (d, f, u)) /\
      d * f * u = weight G0 U x0 nf (sp_flip (vertex0 tm0) (su_v s) req) / weight G0 U x0 nf (su_v s).
Proof.
move=> F Tm ani G0 U x0 nf tm0 junk s req back away tok re tr val cl nz.
have hi := reach_inv tok re.
have [s1 [d [f [u [e h]]]]] := split_ratio tok junk hi tr val cl nz.
by exists s1, d, f, u; split=> //; rewrite -h mulfK // (i_w hi).
Qed.
Print Assumptions C26_mixed_ratio_partial.

(* Accepting moves to the requested configuration and keeps the session open; it fails in
   no state. *)
Theorem C26_accept_partial :
  forall (F : numFieldType) (Tm : eqType) (ani : F) (G0 : sop Tm -> sop Tm -> F) (U : seq (vdef F))
         (x0 : sop Tm) (nf : nat) (tm0 : Tm) (junk : fmat F) (s : sub F Tm) (req : request)
         (s1 : sub F Tm) (r : F * F * F),
    sp_types_ok U ani nf -> reach ani G0 U x0 nf tm0 junk s -> su_trying s ->
    valid_req U (vertex0 tm0) (su_v s) req ->
    simple U (vertex0 tm0) nf (su_v0 s) (su_v s) req ->
    try_spin_flip ani U s tm0 req = Ok (s1, r) -> r.1.1 * r.1.2 * r.2 != 0 ->
    exists2 s2, perform_spin_flip junk tm0 s1 req = Ok s2 &
      [/\ reach ani G0 U x0 nf tm0 junk s2, su_trying s2,
          su_v s2 = sp_flip (vertex0 tm0) (su_v s) req & su_v0 s2 = su_v0 s].
Proof.
move=> F Tm ani G0 U x0 nf tm0 junk s req s1 r tok re tr val sim e nz.
have hi := reach_inv tok re.
have [s1' [d [f [u [e' td]]]]] := try_ok tok junk hi tr val sim.
move: (e); rewrite e' => -[h1 h2]; subst s1' r.
have nz' : weight G0 U x0 nf (sp_flip (vertex0 tm0) (su_v s) req) != 0.
  by rewrite -(td_w td) mulf_neq0 // (i_w hi).
have [s2 e2 [_ t2 v2 v02]] := perform_ok hi tr val td nz'.
by exists s2 => //; split=> //; apply: (R_accept re tr val sim e).
Qed.
Print Assumptions C26_accept_partial.

(* ------------------------------------------------------------------ C27 *)

(* Between sessions, for every history: the rows of the stored matrix of a flavor are the
   operators of that flavor of the current vertices, all of them interacting, and the
   stored matrix is the inverse of A built from scratch for these operators. *)
Theorem C27_stored_inverse :
  forall (F : numFieldType) (Tm : eqType) (ani : F) (G0 : sop Tm -> sop Tm -> F) (U : seq (vdef F))
         (x0 : sop Tm) (nf : nat) (tm0 : Tm) (junk : fmat F) (s : sub F Tm),
    sp_types_ok U ani nf -> reach ani G0 U x0 nf tm0 junk s -> ~~ su_trying s ->
    [/\ size (su_A s) = nf, all (fun v => ~~ v_non v) (su_v s) &
    forall fl, (fl < nf)%N ->
      let m := nth (inva_new F Tm) (su_A s) fl in
      [/\ perm_eq (row_ops s fl) (sp_ops U fl (su_v s)), ia_n m = size (row_ops s fl) &
          inverse_of (ia_n m) (sp_A G0 x0 (row_ops s fl)) (ia_mat m)]].
Proof.
move=> F Tm ani G0 U x0 nf tm0 junk s tok re tr; have hi := reach_inv tok re.
split; [exact: (i_sA hi) | exact: (i_ready hi) |] => fl fll m.
have e := rd_n hi fll; split=> //; first exact: (rd_ops tok hi tr fll).
by rewrite [ia_n m]e; apply: (rd_A tok hi tr fll).
Qed.
Print Assumptions C27_stored_inverse.

(* Closing a session keeps exactly the interacting vertices. *)
Theorem C27_close :
  forall (F : numFieldType) (Tm : eqType) (ani : F) (G0 : sop Tm -> sop Tm -> F) (U : seq (vdef F))
         (x0 : sop Tm) (nf : nat) (tm0 : Tm) (junk : fmat F) (s s2 : sub F Tm),
    sp_types_ok U ani nf -> reach ani G0 U x0 nf tm0 junk s ->
    finalize_update ani x0 s = Ok s2 ->
    [/\ reach ani G0 U x0 nf tm0 junk s2, ~~ su_trying s2 &
        su_v s2 = [seq v <- su_v s | ~~ v_non v]].
Proof.
move=> F Tm ani G0 U x0 nf tm0 junk s s2 tok re e; have hi := reach_inv tok re.
have r2 := R_finalize re e.
case cov : (all (fun v => v_non v ==> sp_covers U nf v) (su_v s)).
  by have [s' e' [h1 h2 h3 _]] := finalize_ok tok tm0 hi cov; move: e r2; rewrite e' => -[<-].
by move: e; rewrite (finalize_throw tm0 hi (negbT cov)).
Qed.
Print Assumptions C27_close.

(* Opening a session adds the new vertices, not interacting, under new numbers. *)
Theorem C27_open :
  forall (F : numFieldType) (Tm : eqType) (ani : F) (G0 : sop Tm -> sop Tm -> F) (U : seq (vdef F))
         (x0 : sop Tm) (nf : nat) (tm0 : Tm) (junk : fmat F) (s : sub F Tm) (new : seq (vertex Tm)),
    sp_types_ok U ani nf -> reach ani G0 U x0 nf tm0 junk s -> ~~ su_trying s ->
    all (fun v => v_type v < size U)%N new ->
    exists2 s2, init_update ani G0 U x0 s new = Ok s2 &
      [/\ reach ani G0 U x0 nf tm0 junk s2, su_trying s2, su_v0 s2 = su_v s2 &
      exists added, [/\ su_v s2 = su_v s ++ added, all (fun v => v_non v) added,
        [seq (v_type v, v_af v, v_time v) | v <- added] = [seq (v_type v, v_af v, v_time v) | v <- new] &
        uniq [seq v_uid v | v <- su_v s2]]].
Proof.
move=> F Tm ani G0 U x0 nf tm0 junk s new tok re tr tn; have hi := reach_inv tok re.
have [s2 e [h t2 v2 v02]] := init_ok tok hi tr tn; exists s2 => //; split=> //.
  exact: (R_init re tr tn e).
exists (number_vertices (su_id s) new); split=> //; last exact: (i_uid h).
  exact: number_non.
rewrite /number_vertices -map_comp.
have -> : [seq ((fun v : vertex Tm => (v_type v, v_af v, v_time v)) \o
     (fun x : vertex Tm * nat => set_uid (set_state x.1 None) x.2)) x | x <- zip new (iota (su_id s).+1 (size new))]
   = [seq (v_type v, v_af v, v_time v) | v <- unzip1 (zip new (iota (su_id s).+1 (size new)))].
  by rewrite -map_comp; apply: eq_map.
by rewrite unzip1_zip // size_iota.
Qed.
Print Assumptions C27_open.

(* ------------------------------------------------------------------ C28 *)

(* A rejected flip, of any valid request that could be tried, leaves the vertices, the
   signs and the stored matrices as they were; the auxiliary matrices keep their rows,
   possibly in another order. *)
Theorem C28_reject :
  forall (F : numFieldType) (Tm : eqType) (ani : F) (G0 : sop Tm -> sop Tm -> F) (U : seq (vdef F))
         (x0 : sop Tm) (nf : nat) (tm0 : Tm) (junk : fmat F) (s : sub F Tm) (req : request)
         (s1 : sub F Tm) (r : F * F * F),
    sp_types_ok U ani nf -> reach ani G0 U x0 nf tm0 junk s -> su_trying s ->
    valid_req U (vertex0 tm0) (su_v s) req ->
    try_spin_flip ani U s tm0 req = Ok (s1, r) ->
    exists2 s2, reject_spin_flip s1 = Ok s2 &
      [/\ reach ani G0 U x0 nf tm0 junk s2,
          [/\ su_trying s2 = su_trying s, su_v s2 = su_v s, su_v0 s2 = su_v0 s & su_A s2 = su_A s],
          [/\ su_sign s2 = su_sign s, su_sdet s2 = su_sdet s & su_id s2 = su_id s] &
          forall fl, (fl < nf)%N ->
            let g := nth (gmat_new F) (su_G s) fl in
            let g2 := nth (gmat_new F) (su_G s2) fl in
            exists Is, [/\ perm_eq Is (iota 0 (size (gm_info g))), gm_n g2 = gm_n g,
              gm_info g2 = [seq nth (info0 F) (gm_info g) i | i <- Is] &
              forall i j, (i < gm_n g)%N -> (j < gm_n g)%N ->
                gm_mat g2 i j = gm_mat g (nth 0%N Is i) (nth 0%N Is j)]].
Proof.
move=> F Tm ani G0 U x0 nf tm0 junk s req s1 [[d f] u] tok re tr val e; have hi := reach_inv tok re.
have td := try_mixed tok junk hi tr val e.
have [s2 e2 [t A v v0 sd sg id sG G]] := mreject_ok hi td; exists s2 => //; split=> //.
  exact: (R_reject re tr val e e2).
move=> fl fll g g2; have [Is] := G _ fll.
by rewrite {1}(ga_n (fv_ga (i_fl hi fll))); exists Is.
Qed.
Print Assumptions C28_reject.

(* If on every flavor the request changes alphas in one direction only, the auxiliary
   matrices keep their order as well. *)
Theorem C28_reject_exact :
  forall (F : numFieldType) (Tm : eqType) (ani : F) (G0 : sop Tm -> sop Tm -> F) (U : seq (vdef F))
         (x0 : sop Tm) (nf : nat) (tm0 : Tm) (junk : fmat F) (s : sub F Tm) (req : request)
         (s1 : sub F Tm) (r : F * F * F),
    sp_types_ok U ani nf -> reach ani G0 U x0 nf tm0 junk s -> su_trying s ->
    valid_req U (vertex0 tm0) (su_v s) req ->
    simple U (vertex0 tm0) nf (su_v0 s) (su_v s) req ->
    try_spin_flip ani U s tm0 req = Ok (s1, r) ->
    exists2 s2, reject_spin_flip s1 = Ok s2 &
      [/\ reach ani G0 U x0 nf tm0 junk s2,
          [/\ su_trying s2 = su_trying s, su_v s2 = su_v s, su_v0 s2 = su_v0 s & su_A s2 = su_A s],
          [/\ su_sign s2 = su_sign s, su_sdet s2 = su_sdet s & su_id s2 = su_id s] &
          forall fl, (fl < nf)%N ->
            let g := nth (gmat_new F) (su_G s) fl in
            let g2 := nth (gmat_new F) (su_G s2) fl in
            [/\ gm_n g2 = gm_n g, gm_info g2 = gm_info g &
                forall i j, (i < gm_n g)%N -> (j < gm_n g)%N -> gm_mat g2 i j = gm_mat g i j]].
Proof.
move=> F Tm ani G0 U x0 nf tm0 junk s req s1 r tok re tr val sim e; have hi := reach_inv tok re.
have [s1' [d [f [u [e' td]]]]] := try_ok tok junk hi tr val sim.
move: (e); rewrite e' => -[h1 h2]; subst s1' r.
have [s2 e2 [t A v v0 sd sg id sG G]] := reject_ok hi td; exists s2 => //; split=> //.
  exact: (R_reject re tr val e e2).
by move=> fl fll g g2; case: (G _ fll) => g1 gm gi; split=> // i j il jl; rewrite gm.
Qed.
Print Assumptions C28_reject_exact.

(* ------------------------------------------------------------------ C29 *)

(* compute_M is the inverse of G0 - alpha for the operators of the rows. *)
Theorem C29_compute_M :
  forall (F : numFieldType) (Tm : eqType) (ani : F) (G0 : sop Tm -> sop Tm -> F) (U : seq (vdef F))
         (x0 : sop Tm) (nf : nat) (tm0 : Tm) (junk : fmat F) (s : sub F Tm),
    sp_types_ok U ani nf -> reach ani G0 U x0 nf tm0 junk s -> ~~ su_trying s ->
    size (compute_M ani x0 s) = nf /\
    forall fl, (fl < nf)%N ->
      let M := nth (0%N, fun _ _ => 0) (compute_M ani x0 s) fl in
      [/\ perm_eq (row_ops s fl) (sp_ops U fl (su_v s)), M.1 = size (row_ops s fl) &
          inverse_of M.1 (sp_mat G0 x0 (row_ops s fl)) M.2].
Proof.
move=> F Tm ani G0 U x0 nf tm0 junk s tok re tr; have hi := reach_inv tok re.
rewrite size_map; split; first exact: (i_sA hi).
move=> fl fll M; rewrite /M (nth_map (inva_new F Tm)) ?(i_sA hi) //=.
have e := rd_n hi fll; split=> //; first exact: (rd_ops tok hi tr fll).
by rewrite [ia_n _]e; apply: (rd_M tok hi tr fll).
Qed.
Print Assumptions C29_compute_M.

(* compute_M_from_scratch gives the same matrices, the weight and its sign. *)
Theorem C29_from_scratch :
  forall (F : numFieldType) (Tm : eqType) (ani : F) (G0 : sop Tm -> sop Tm -> F) (U : seq (vdef F))
         (x0 : sop Tm) (nf : nat) (tm0 : Tm) (junk : fmat F) (s : sub F Tm),
    sp_types_ok U ani nf -> reach ani G0 U x0 nf tm0 junk s -> ~~ su_trying s ->
    let: (Ms, sign, w) := compute_M_scratch G0 U x0 s in
    [/\ w = weight G0 U x0 nf (su_v s),
        sign = weight G0 U x0 nf (su_v s) / `|weight G0 U x0 nf (su_v s)|, size Ms = nf &
    forall fl, (fl < nf)%N ->
      let M := nth (0%N, fun _ _ => 0) (compute_M ani x0 s) fl in
      let M' := nth (0%N, fun _ _ => 0) Ms fl in
      M'.1 = M.1 /\ forall i j, (i < M.1)%N -> (j < M.1)%N -> M'.2 i j = M.2 i j].
Proof.
move=> F Tm ani G0 U x0 nf tm0 junk s tok re tr; have hi := reach_inv tok re.
have [h1 h2] := scratch_ok tok hi tr.
move: h1 h2; case E : (compute_M_scratch _ _ _ _) => [[Ms sign] w] /= h1 h2.
have eMs : Ms = (compute_M_scratch G0 U x0 s).1.1 by rewrite E.
rewrite eMs; split=> //; first by rewrite size_map (i_sA hi).
move=> fl fll; rewrite /compute_M_scratch /= !(nth_map (inva_new F Tm)) ?(i_sA hi) //=; split=> //.
have e := rd_n hi fll.
have := inverse_uniq (rd_scratch tok hi tr fll) (rd_M tok hi tr fll); rewrite -e.
by apply.
Qed.
Print Assumptions C29_from_scratch.

(* ------------------------------------------------------------------ C57 *)

(* The running sign is the sign of the weight of the current configuration, in and between
   sessions, for every history; and no history reaches a configuration of weight zero. *)
Theorem C57_running_sign :
  forall (F : numFieldType) (Tm : eqType) (ani : F) (G0 : sop Tm -> sop Tm -> F) (U : seq (vdef F))
         (x0 : sop Tm) (nf : nat) (tm0 : Tm) (junk : fmat F) (s : sub F Tm),
    sp_types_ok U ani nf -> reach ani G0 U x0 nf tm0 junk s ->
    weight G0 U x0 nf (su_v s) != 0 /\
    su_sign s = weight G0 U x0 nf (su_v s) / `|weight G0 U x0 nf (su_v s)|.
Proof.
move=> F Tm ani G0 U x0 nf tm0 junk s tok re; have hi := reach_inv tok re.
by split; [exact: (i_w hi) | exact: (i_sign hi)].
Qed.
Print Assumptions C57_running_sign.

(* ------------------------------------------------------------------ C58 *)

(* The constructor from a vertex list takes over the vertices, and recomputing changes
   neither the vertices nor the sign. *)
Theorem C58_construct :
  forall (F : numFieldType) (Tm : eqType) (ani : F) (G0 : sop Tm -> sop Tm -> F) (U : seq (vdef F))
         (x0 : sop Tm) (nf : nat) (tm0 : Tm) (junk : fmat F) (j : F) (vs : seq (vertex Tm)),
    sp_types_ok U ani nf -> all (sp_vertex_ok U) vs -> all (fun v => ~~ v_non v) vs ->
    weight G0 U x0 nf vs != 0 ->
    exists2 s, sub_from ani G0 U x0 nf j vs = Ok s &
      [/\ reach ani G0 U x0 nf tm0 junk s, ~~ su_trying s, same_vertices (su_v s) vs &
          su_sign s = weight G0 U x0 nf vs / `|weight G0 U x0 nf vs|].
Proof.
move=> F Tm ani G0 U x0 nf tm0 junk j vs tok ok it nz.
have [s e [hi tr dat]] := from_ok tok j ok it nz; exists s => //; split=> //.
- exact: (R_from tm0 junk ok it nz e).
- rewrite /same_vertices; have h (ws : seq (vertex Tm)) : [seq v.1 | v <- ws] = map (@vdata Tm) ws.
    by apply: eq_map => -[[[[a b] c] d] k].
  by rewrite !h.
- by rewrite (i_sign hi) (wt_data _ _ _ _ dat).
Qed.
Print Assumptions C58_construct.

Theorem C58_recompute :
  forall (F : numFieldType) (Tm : eqType) (ani : F) (G0 : sop Tm -> sop Tm -> F) (U : seq (vdef F))
         (x0 : sop Tm) (nf : nat) (tm0 : Tm) (junk : fmat F) (s : sub F Tm),
    sp_types_ok U ani nf -> reach ani G0 U x0 nf tm0 junk s -> ~~ su_trying s ->
    exists2 s2, recompute_matrix ani G0 U x0 s = Ok s2 &
      [/\ reach ani G0 U x0 nf tm0 junk s2, ~~ su_trying s2, su_v s2 = su_v s, su_sign s2 = su_sign s &
      forall fl, (fl < nf)%N ->
        let m := nth (inva_new F Tm) (su_A s) fl in let m2 := nth (inva_new F Tm) (su_A s2) fl in
        [/\ ia_n m2 = ia_n m, ia_rows m2 = ia_rows m &
            forall i j, (i < ia_n m)%N -> (j < ia_n m)%N -> ia_mat m2 i j = ia_mat m i j]].
Proof.
move=> F Tm ani G0 U x0 nf tm0 junk s tok re tr; have hi := reach_inv tok re.
have [s2 e [h2 t2 v2 g2 r2]] := recompute_ok tok hi tr; exists s2 => //; split=> //.
  exact: (R_recompute re e).
move=> fl fll m m2; have er := r2 _ fll; have st := fv_st (i_fl hi fll); have st2 := fv_st (i_fl h2 fll).
split=> //; first by rewrite [ia_n m2](st_n st2) [ia_n m](st_n st) er.
rewrite [ia_n m](st_n st); apply: inverse_uniq (st_inv st).
by have := st_inv st2; rewrite er.
Qed.
Print Assumptions C58_recompute.

(* ------------------------------------------------------------------ C30 *)

(* Recomputing inside a session is reported as an error. *)
Theorem C30_recompute_in_session :
  forall (F : numFieldType) (Tm : eqType) (ani : F) (G0 : sop Tm -> sop Tm -> F) (U : seq (vdef F))
         (x0 : sop Tm) (s : sub F Tm),
    su_trying s -> recompute_matrix ani G0 U x0 s = Throw.
Proof. by move=> F Tm ani G0 U x0 s; apply: recompute_throw. Qed.
Print Assumptions C30_recompute_in_session.

(* ------------------------------------------------------------------ C31 *)

(* In a reachable object, closing a session succeeds exactly when every vertex that does
   not interact has an operator on every flavor; otherwise it throws. *)
Theorem C31_finalize :
  forall (F : numFieldType) (Tm : eqType) (ani : F) (G0 : sop Tm -> sop Tm -> F) (U : seq (vdef F))
         (x0 : sop Tm) (nf : nat) (tm0 : Tm) (junk : fmat F) (s : sub F Tm),
    sp_types_ok U ani nf -> reach ani G0 U x0 nf tm0 junk s ->
    if all (fun v => v_non v ==> sp_covers U nf v) (su_v s)
    then exists2 s2, finalize_update ani x0 s = Ok s2 & su_v s2 = [seq v <- su_v s | ~~ v_non v]
    else finalize_update ani x0 s = Throw.
Proof.
move=> F Tm ani G0 U x0 nf tm0 junk s tok re; have hi := reach_inv tok re.
case: ifP => cov; last exact: (finalize_throw tm0 hi (negbT cov)).
by have [s2 e [_ _ h _]] := finalize_ok tok tm0 hi cov; exists s2.
Qed.
Print Assumptions C31_finalize.

(* ---- concrete cases ---- *)

Definition r_ (a b : int) : rat := a%:~R / b%:~R.
(* two flavors, one site, a density-density vertex type with two auxiliary-field states *)
Definition UX : seq (vdef [numFieldType of rat]) :=
  [:: VDef 2 [:: 0; 1]%N [:: 0; 0; 0; 0]%N 2 (r_ 2 1 : [numFieldType of rat]) (fun a r => if a == r then r_ 3 1 else r_ (-2) 1)].
Definition aniX : rat := r_ 100 1.
Definition GX (a b : sop [eqType of nat]) : rat := if a.1.2 == b.1.2 then r_ 1 2 else r_ 1 3.
Definition xX : sop [eqType of nat] := (0%N, 0%N, 0%N, 0).
Definition vX (af t : nat) : vertex [eqType of nat] := (0%N, af, t, false, 0%N).
Definition jX : fmat [numFieldType of rat] := fun _ _ => 0.
Notation reachX := (reach (F := [numFieldType of rat]) aniX GX UX xX 2 0%N jX).

Lemma tokX : sp_types_ok UX aniX 2. Proof. by vm_compute. Qed.

(* the weight of one vertex *)
Lemma weightX (af t u : nat) : (af < 2)%N ->
  weight (F := [numFieldType of rat]) (Tm := [eqType of nat]) GX UX xX 2 [:: (0%N, af, t, false, u)] =
  (r_ 1 2 - (if af == 0%N then r_ 3 1 else r_ (-2) 1)) * (r_ 1 2 - (if af == 1%N then r_ 3 1 else r_ (-2) 1)) * - r_ 2 1.
Proof.
move=> h; rewrite /weight !big_ord_recl big_ord0 big_cons big_nil !mulr1.
by rewrite !det_ofE /fdet [size _]/= !det_mx11 !mxE /sp_mat /= /GX /= eqxx.
Qed.
Lemma weightX_ne0 (af t u : nat) : (af < 2)%N ->
  weight (F := [numFieldType of rat]) (Tm := [eqType of nat]) GX UX xX 2 [:: (0%N, af, t, false, u)] != 0.
Proof. by move=> h; rewrite weightX //; case: af h => [|[|]]. Qed.

(* A session with two new vertices: the first is switched on, a switch of the second is
   rejected, the session is closed. *)
Notation vsX := (number_vertices 0 [:: vX 0 5; vX 0 7]).
Notation wX := (weight (F := [numFieldType of rat]) (Tm := [eqType of nat]) GX UX xX 2).

Example C26_case : exists s s1 d f u,
  [/\ reachX s, su_trying s /\ su_v s = vsX,
      valid_req UX (vertex0 0%N) (su_v s) [:: (0%N, Some 1%N)],
      simple UX (vertex0 0%N) 2 (su_v0 s) (su_v s) [:: (0%N, Some 1%N)] &
      try_spin_flip aniX UX s 0%N [:: (0%N, Some 1%N)] = Ok (s1, (d, f, u)) /\ d * f * u = r_ 25 2].
Proof.
have [s e [hi tr v v0]] := init_ok tokX (new_ok (F := [numFieldType of rat]) aniX GX UX xX 2 0) (isT : ~~ su_trying (sub_new _ 2 0)) (isT : all (fun v => v_type v < size UX)%N [:: vX 0 5; vX 0 7]).
have re : reachX s by apply: (R_init (R_new _ _ _ _ _ _ _ _) _ _ e).
have v1 : su_v s = vsX by rewrite v.
have val : valid_req UX (vertex0 0%N) (su_v s) [:: (0%N, Some 1%N)] by rewrite v1.
have sim : simple UX (vertex0 0%N) 2 (su_v0 s) (su_v s) [:: (0%N, Some 1%N)].
  by rewrite v0 v1 => -[|[|]] // _; vm_compute.
have [nz [s1 [d [f [u [e1 e2]]]]]] := C26_spin_flip_ratio_partial tokX re tr val sim.
exists s, s1, d, f, u; split=> //; split=> //; rewrite e2 v1.
have -> : wX vsX = 1 by rewrite wt_ints; apply: wt_nil.
rewrite divr1 wt_ints weightX //.
Qed.

(* the same session, after the first vertex was switched on *)
Notation vsX1 := [:: (0%N, 1%N, 5%N, false, 1%N); (0%N, 0%N, 7%N, true, 2%N)].
Lemma sessionX : exists s, [/\ reachX s, su_trying s, su_v s = vsX1 & su_v0 s = vsX].
Proof.
have [s e [hi tr v v0]] := init_ok tokX (new_ok (F := [numFieldType of rat]) aniX GX UX xX 2 0) (isT : ~~ su_trying (sub_new _ 2 0)) (isT : all (fun v => v_type v < size UX)%N [:: vX 0 5; vX 0 7]).
have re : reachX s by apply: (R_init (R_new _ _ _ _ _ _ _ _) _ _ e).
have v1 : su_v s = vsX by rewrite v.
have val : valid_req UX (vertex0 0%N) (su_v s) [:: (0%N, Some 1%N)] by rewrite v1.
have sim : simple UX (vertex0 0%N) 2 (su_v0 s) (su_v s) [:: (0%N, Some 1%N)].
  by rewrite v0 v1 => -[|[|]] // _; vm_compute.
have [nz [s1 [d [f [u [e1 e2]]]]]] := C26_spin_flip_ratio_partial tokX re tr val sim.
have nz' : d * f * u != 0.
  by rewrite e2 mulf_neq0 ?invr_eq0 // v1 wt_ints; apply: weightX_ne0.
have [s2 e3 [r2 t2 v2 v02]] := C26_accept_partial tokX re tr val sim e1 nz'.
by exists s2; split=> //; rewrite ?v02 ?v0 ?v2 v1.
Qed.

(* A second change of an alpha in the session is not implemented: try_spin_flip throws. *)
Theorem C26_replace_refuted : exists s,
  [/\ reachX s, su_trying s, valid_req UX (vertex0 0%N) (su_v s) [:: (0%N, Some 0%N)],
      wX (sp_flip (vertex0 0%N) (su_v s) [:: (0%N, Some 0%N)]) != 0 &
      try_spin_flip aniX UX s 0%N [:: (0%N, Some 0%N)] = Throw].
Proof.
have [s [re tr v v0]] := sessionX.
have val : valid_req UX (vertex0 0%N) (su_v s) [:: (0%N, Some 0%N)] by rewrite v.
exists s; split=> //; first by rewrite v wt_ints; apply: weightX_ne0.
apply: (try_throw tokX (reach_inv tokX re) tr val) => //.
by rewrite /ops /opsl /opsx v v0; vm_compute.
Qed.
Print Assumptions C26_replace_refuted.

(* closing this session leaves the first vertex *)
Example C27_case : exists s, [/\ reachX s, ~~ su_trying s & su_v s = [:: (0%N, 1%N, 5%N, false, 1%N)]].
Proof.
have [s [re tr v v0]] := sessionX.
have := C31_finalize tokX re; rewrite v => -[s2 e e2].
by have [r2 t2 v2] := C27_close tokX re e; exists s2.
Qed.

(* a switch of the second vertex is rejected *)
Example C28_case : exists s s1 r s2,
  [/\ reachX s, try_spin_flip aniX UX s 0%N [:: (1%N, Some 0%N)] = Ok (s1, r), reject_spin_flip s1 = Ok s2 &
      su_v s2 = vsX1].
Proof.
have [s [re tr v v0]] := sessionX.
have val : valid_req UX (vertex0 0%N) (su_v s) [:: (1%N, Some 0%N)] by rewrite v.
have sim : simple UX (vertex0 0%N) 2 (su_v0 s) (su_v s) [:: (1%N, Some 0%N)].
  by rewrite v0 v => -[|[|]] // _; vm_compute.
have [nz [s1 [d [f [u [e1 e2]]]]]] := C26_spin_flip_ratio_partial tokX re tr val sim.
have [s2 e3 [_ [_ v2 _ _] _ _]] := C28_reject_exact tokX re tr val sim e1.
by exists s, s1, (d, f, u), s2; rewrite v2.
Qed.

(* the first vertex is switched off and the second on, in one request that is then
   rejected *)
Notation reqX := [:: (0%N, None); (1%N, Some 0%N)].
Lemma mixedX : exists s s1 d f u,
  [/\ reachX s, su_trying s, su_v s = vsX1, su_v0 s = vsX &
      try_spin_flip aniX UX s 0%N reqX = Ok (s1, (d, f, u)) /\
      d * f * u = wX [:: (0%N, 0%N, 7%N, false, 2%N)] / wX [:: (0%N, 1%N, 5%N, false, 1%N)]].
Proof.
have [s [re tr v v0]] := sessionX.
have val : valid_req UX (vertex0 0%N) (su_v s) reqX by rewrite v.
have bE : [seq x <- reqX | sp_back UX (vertex0 0%N) 2 vsX vsX1 x] = [:: (0%N, None)] by vm_compute.
have cE : all (fun x => sp_back UX (vertex0 0%N) 2 vsX vsX1 x || sp_away UX (vertex0 0%N) 2 vsX vsX1 x) reqX.
  by vm_compute.
have [||s1 [d [f [u [e1 e2]]]]] := C26_mixed_ratio_partial tokX re tr val.
- by rewrite v0 v; exact: cE.
- rewrite v0 v bE.
  by rewrite wt_ints [filter _ _]/= wt_nil oner_eq0.
exists s, s1, d, f, u; split=> //; split=> //; rewrite e2 v.
by rewrite [sp_flip _ _ _]/= wt_ints [X in _ / X]wt_ints.
Qed.
Example C28_mixed_case : exists s s1 r s2,
  [/\ reachX s, try_spin_flip aniX UX s 0%N reqX = Ok (s1, r), ~ simple UX (vertex0 0%N) 2 (su_v0 s) (su_v s) reqX,
      reject_spin_flip s1 = Ok s2 & reachX s2 /\ su_v s2 = vsX1].
Proof.
have [s [s1 [d [f [u [re tr v v0 [e _]]]]]]] := mixedX.
have val : valid_req UX (vertex0 0%N) (su_v s) reqX by rewrite v.
have [s2 e3 [r2 [_ v2 _ _] _ _]] := C28_reject tokX re tr val e.
exists s, s1, (d, f, u), s2; split=> //; last by rewrite v2.
by rewrite v0 v => /(_ 0%N isT); vm_compute.
Qed.

(* ---- accepting a request that switches vertices on and off ---- *)

(* vertices at different times are independent *)
Definition GD (a b : sop [eqType of nat]) : rat := if a.1.2 == b.1.2 then r_ 1 2 else 0.
Notation reachD := (reach (F := [numFieldType of rat]) aniX GD UX xX 2 0%N jX).
Notation wD := (weight (F := [numFieldType of rat]) (Tm := [eqType of nat]) GD UX xX 2).
Definition onD (v : vertex [eqType of nat]) : bool := [&& v_type v == 0%N, v_af v == 1%N & ~~ v_non v].

Lemma opsD fl (vs : seq (vertex [eqType of nat])) : (fl < 2)%N -> all onD vs ->
  sp_ops UX fl vs = [seq sp_term UX v fl | v <- vs].
Proof.
move=> fll; rewrite /sp_ops; elim: vs => [//|v vs IH] /= /andP [/and3P [/eqP t _ on] al].
rewrite on /= IH // /sp_flavor /sp_def t /=.
by case: fl fll {IH} => [|[|]].
Qed.

Lemma weightD_ne0 (vs : seq (vertex [eqType of nat])) : all onD vs -> uniq [seq v_time v | v <- vs] -> wD vs != 0.
Proof.
move=> al u; rewrite /weight mulf_neq0 //; last first.
  rewrite prodf_seq_neq0; apply/allP => v vi; apply/implyP => _.
  by have /and3P [/eqP t _ _] := allP al v vi; rewrite /sp_def t.
apply/prodf_neq0 => fl _; rewrite opsD ?ltn_ord // size_map.
set t := map _ _; set d0 := vertex0 0%N.
have E : mxof (size vs) (size vs) (sp_mat GD xX t) = diag_mx (\row_i (sp_mat GD xX t i i)).
  apply/matrixP => i j; rewrite !mxE; case: (i =P j) => [->|ne]; rewrite ?mulr1n // mulr0n.
  have ne' : (i : nat) != j by apply/eqP => e; apply: ne; apply: val_inj.
  rewrite /sp_mat (negbTE ne') subr0 /t !(nth_map d0) // /GD /=.
  by rewrite -!(nth_map d0 0%N (@v_time _)) // nth_uniq ?size_map // (negbTE ne').
rewrite det_ofE /fdet E det_diag; apply/prodf_neq0 => i _; rewrite mxE.
rewrite /sp_mat eqxx /t !(nth_map d0) // /GD /= eqxx.
have /and3P [/eqP e1 /eqP e2 _] := allP al _ (mem_nth d0 (ltn_ord i)).
rewrite /sp_def e1 e2 {E} /t; clear; by case: fl => [[|[|]]].
Qed.

Notation vsD := (number_vertices 0 [:: vX 0 5; vX 0 7; vX 0 9; vX 0 11]).
Notation vsD2 := [:: (0%N, 1%N, 5%N, false, 1%N); (0%N, 1%N, 7%N, false, 2%N);
  (0%N, 0%N, 9%N, true, 3%N); (0%N, 0%N, 11%N, true, 4%N)].
Notation reqD := [:: (0%N, None); (2%N, Some 1%N); (3%N, Some 1%N)].

Lemma sessionD : exists s, [/\ reachD s, su_trying s, su_v s = vsD2 & su_v0 s = vsD].
Proof.
have [s e [hi tr v v0]] := init_ok tokX (new_ok (F := [numFieldType of rat]) aniX GD UX xX 2 0) (isT : ~~ su_trying (sub_new _ 2 0)) (isT : all (fun v => v_type v < size UX)%N [:: vX 0 5; vX 0 7; vX 0 9; vX 0 11]).
have re : reachD s by apply: (R_init (R_new _ _ _ _ _ _ _ _) _ _ e).
have v1 : su_v s = vsD by rewrite v.
pose req : request := [:: (0%N, Some 1%N); (1%N, Some 1%N)].
have val : valid_req UX (vertex0 0%N) (su_v s) req by rewrite v1.
have sim : simple UX (vertex0 0%N) 2 (su_v0 s) (su_v s) req.
  by rewrite v0 v1 => -[|[|]] // _; vm_compute.
have [nz [s1 [d [f [u [e1 e2]]]]]] := C26_spin_flip_ratio_partial tokX re tr val sim.
have nz' : d * f * u != 0.
  by rewrite e2 mulf_neq0 ?invr_eq0 // v1 wt_ints; apply: weightD_ne0.
have [s2 e3 [r2 t2 v2 v02]] := C26_accept_partial tokX re tr val sim e1 nz'.
by exists s2; split=> //; rewrite ?v02 ?v0 ?v2 v1.
Qed.

(* The request switches the first vertex off and the third and fourth on; its ratio is
   computed rightly and is not 0, but accepting it is undefined. *)
Theorem C26_mixed_accept_refuted : exists s s1 d f u,
  [/\ reachD s, su_trying s, valid_req UX (vertex0 0%N) (su_v s) reqD,
      try_spin_flip aniX UX s 0%N reqD = Ok (s1, (d, f, u)) /\
      d * f * u = wD (sp_flip (vertex0 0%N) (su_v s) reqD) / wD (su_v s) &
      d * f * u != 0 /\ perform_spin_flip jX 0%N s1 reqD = UB].
Proof.
have [s [re tr v v0]] := sessionD; have hi := reach_inv tokX re.
have val : valid_req UX (vertex0 0%N) (su_v s) reqD by rewrite v.
have bE : [seq x <- reqD | sp_back UX (vertex0 0%N) 2 vsD vsD2 x] = [:: (0%N, None)] by vm_compute.
have cE : all (fun x => sp_back UX (vertex0 0%N) 2 vsD vsD2 x || sp_away UX (vertex0 0%N) 2 vsD vsD2 x) reqD.
  by vm_compute.
have [||s1 [d [f [u [e1 e2]]]]] := C26_mixed_ratio_partial tokX re tr val.
- by rewrite v0 v; exact: cE.
- by rewrite v0 v bE wt_ints; apply: weightD_ne0.
exists s, s1, d, f, u; split=> //; split.
  by rewrite e2 v wt_ints [X in _ / X]wt_ints mulf_neq0 // ?invr_eq0; apply: weightD_ne0.
have hf := i_fl hi (isT : (0 < 2)%N).
have p0 := fv_p0 hf; have p1 := fv_p hf; rewrite /ini tr v0 in p0; rewrite v in p1.
have n2 : size (inff s 0) = 2%N.
  rewrite -(count_info (ga_io (fv_ga hf))); last by rewrite (perm_all _ p0); vm_compute.
  by move/permP: p1 => ->; vm_compute.
have [cr ci] : count (@goes_rem _) (ops aniX UX 0%N s reqD 0) = 1%N /\ count (@goes_ins _) (ops aniX UX 0%N s reqD 0) = 2%N.
  by rewrite /ops /opsl /opsx v v0; vm_compute.
have := mixed_UB tokX jX hi tr val (isT : (0 < 2)%N) e1.
by rewrite /= cr ci n2; apply.
Qed.
Print Assumptions C26_mixed_accept_refuted.

(* the constructor, with one vertex *)
Example C58_case : exists2 s, sub_from aniX GX UX xX 2 (0 : [numFieldType of rat]) [:: vX 1 5] = Ok s &
  reachX s /\ su_sign s = 1.
Proof.
have [|s e [re tr v sg]] := @C58_construct _ _ aniX GX UX xX 2 0%N jX 0 [:: vX 1 5] tokX isT isT.
  exact: weightX_ne0.
exists s; [exact: e | split; [exact: re |]]; rewrite sg.
have -> : wX [:: vX 1 5] = r_ 25 2.
  by rewrite weightX //; apply/eqP; vm_compute.
by apply/eqP; vm_compute.
Qed.
Example C29_case : exists s,
  [/\ reachX s, ~~ su_trying s & forall fl, (fl < 2)%N -> (nth (0%N, fun _ _ => 0) (compute_M aniX xX s) fl).1 = 1%N].
Proof.
have [s [re tr v]] := C27_case; exists s; split=> // fl fll.
have [_ h] := C29_compute_M tokX re tr; have [p e _] := h fl fll; rewrite e (perm_size p) v.
by case: fl fll p e => [|[|]].
Qed.
Example C57_case : exists s, reachX s /\ su_sign s = 1.
Proof. by have [s e h] := C58_case; exists s. Qed.

(* The other calls do not look at the phase: finalize_update outside a session returns,
   and perform_spin_flip without a try changes the vertices but not the matrices. *)
Theorem C30_phase_refuted :
  (exists s s2, [/\ reachX s, ~~ su_trying s & finalize_update aniX xX s = Ok s2]) /\
  (exists s s2, [/\ reachX s, su_trying s, su_v s = vsX,
     perform_spin_flip jX 0%N s [:: (0%N, Some 1%N)] = Ok s2 &
     [/\ su_v s2 = vsX1, su_A s2 = su_A s & su_G s2 = su_G s]]).
Proof.
split.
  have [s [re tr v]] := C27_case.
  have := C31_finalize tokX re; rewrite v => -[s2 e _].
  by exists s, s2.
have [s e [hi tr v v0]] := init_ok tokX (new_ok (F := [numFieldType of rat]) aniX GX UX xX 2 0) (isT : ~~ su_trying (sub_new _ 2 0)) (isT : all (fun v => v_type v < size UX)%N [:: vX 0 5; vX 0 7]).
have re : reachX s by apply: (R_init (R_new _ _ _ _ _ _ _ _) _ _ e).
have [eG eR eI eP] : [/\ su_G s = nseq 2 (gmat_new _), su_rem s = nseq 2 [::], su_ins s = nseq 2 [::] & su_rep s = nseq 2 [::]].
  by move: (e); rewrite /init_update [size (su_A _)]/= (types_ok_all tokX) // => -[<-].
have v1 : su_v s = vsX by rewrite v.
have sA := i_sA hi.
exists s; eexists; split; [exact: re | exact: tr | exact: v1 | |].
  by rewrite /perform_spin_flip sA v1 eG eR eI eP /=; reflexivity.
by split; rewrite /= ?eG.
Qed.
Print Assumptions C30_phase_refuted.
Example C30_case : exists s : sub [numFieldType of rat] [eqType of nat], reachX s /\ su_trying s.
Proof. by have [s [re tr _ _]] := sessionX; exists s. Qed.

(* ------------------------------------------------------------------ C31, refuted *)

(* two flavors; a vertex type with both parts on flavor 0 *)
Definition UY : seq (vdef [numFieldType of rat]) :=
  [:: VDef 2 [:: 0; 0]%N [:: 0; 0; 1; 1]%N 2 (r_ 2 1 : [numFieldType of rat]) (fun a r => if a == r then r_ 3 1 else r_ (-2) 1)].
Lemma tokY : sp_types_ok UY aniX 2. Proof. by vm_compute. Qed.

Theorem C31_finalize_refuted : exists s new s1,
  [/\ reach (F := [numFieldType of rat]) aniX GX UY xX 2 0%N jX s, ~~ su_trying s,
      init_update aniX GX UY xX s new = Ok s1 & finalize_update aniX xX s1 = Throw].
Proof.
have [s e [hi tr v v0]] := init_ok tokY (new_ok (F := [numFieldType of rat]) aniX GX UY xX 2 0) (isT : ~~ su_trying (sub_new _ 2 0)) (isT : all (fun v => v_type v < size UY)%N [:: vX 0 5]).
have re : reach (F := [numFieldType of rat]) aniX GX UY xX 2 0%N jX s by apply: (R_init (R_new _ _ _ _ _ _ _ _) _ _ e).
exists (sub_new [eqType of nat] 2 0), [:: vX 0 5], s; split=> //; first exact: R_new.
by have := C31_finalize tokY re; rewrite v.
Qed.
Print Assumptions C31_finalize_refuted.
