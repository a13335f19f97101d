(* Property theorems: C32 - C36, C59, C60 (the Monte Carlo moves). *)
From mathcomp Require Import all_ssreflect ssralg ssrnum ssrint rat matrix.
From Verif Require Import Outcome MatLib MatSpec FormulaProofs SubModel SubSpec SubConf SubProofs Prop_Sub UMatModel UMatProofs ManModel ManSpec ManCount ManProofs ManGlobal ManShift.

Set Implicit Arguments.
Unset Strict Implicit.
Unset Printing Implicit Defensive.

Import Order.TTheory GRing.Theory Num.Theory.
Local Open Scope ring_scope.

(* The random numbers: not negative, and static_cast<int>(r*N) is below N. *)
Definition random_ok (F : numFieldType) (R : Type) (rval : R -> F) (ridx : nat -> R -> nat) : Prop :=
  (forall r, 0 <= rval r) /\ (forall N r, (0 < N)%N -> (ridx N r < N)%N).

(* ------------------------------------------------------------------ C32 *)

(* What an insertion proposes: type, state and time each from a random number of its own. *)
Theorem C32_proposal :
  forall (F : numFieldType) (Tm : eqType) (U : seq (vdef F)) (R : Type) (ridx : nat -> R -> nat)
         (rtime : R -> Tm) (r1 r2 r3 : R) (rs : seq R),
    (0 < size U)%N -> (ridx (size U) r2 < size U)%N ->
    gen_vertices U ridx rtime (r1 :: r2 :: r3 :: rs) =
    Ok ([:: (ridx (size U) r2, ridx (vd_naf (nth (vdef0 F) U (ridx (size U) r2))) r3, rtime r1, false, 0%N)], rs).
Proof.
move=> F Tm U R ridx rtime r1 r2 r3 rs Up kl.
by rewrite /gen_vertices /sv_size (gtn_eqF Up) /= leqNgt kl.
Qed.
Print Assumptions C32_proposal.

(* An insertion of a waiting vertex: accepted exactly when the random number is below
   |W'/W| beta N/(n+1) us, and the returned number is the ratio of the weights of the
   configurations after and before the step. *)
Theorem C32_insertion :
  forall (F : numFieldType) (Tm : eqType) (ani : F) (G0 : sop Tm -> sop Tm -> F) (U : seq (vdef F))
         (x0 : sop Tm) (nf : nat) (tm0 : Tm) (junk : fmat F) (beta us : F) (R : Type) (rval : R -> F)
         (ridx : nat -> R -> nat) (s : sub F Tm) (b : nat) (r : R) (rs : seq R),
    sp_types_ok U ani nf -> random_ok rval ridx -> 0 < beta -> 0 < us ->
    reach ani G0 U x0 nf tm0 junk s -> su_trying s -> (b < size (su_v s))%N ->
    v_non (nth (vertex0 tm0) (su_v s) b) -> v_non (nth (vertex0 tm0) (su_v0 s) b) ->
    (v_af (nth (vertex0 tm0) (su_v s) b) < vd_naf (sp_def U (nth (vertex0 tm0) (su_v s) b)))%N ->
    let a := v_af (nth (vertex0 tm0) (su_v s) b) in
    let vs' := sp_flip (vertex0 tm0) (su_v s) [:: (b, Some a)] in
    let go := rval r < sp_ins_rate G0 U x0 nf beta us (su_v s) vs' in
    exists2 s2, insertion_step ani U tm0 junk beta rval s b 1 us (r :: rs) =
        Ok (if go then weight G0 U x0 nf vs' / weight G0 U x0 nf (su_v s) else 1, s2, rs) &
      [/\ reach ani G0 U x0 nf tm0 junk s2, su_trying s2, su_v s2 = (if go then vs' else su_v s) & su_v0 s2 = su_v0 s].
Proof.
move=> F Tm ani G0 U x0 nf tm0 junk beta us R rval ridx s b r rs tok [rpos rok] bpos upos re tr bl nb nb0 al a vs'; cbv zeta.
have val : valid_req U (vertex0 tm0) (su_v s) [:: (b, Some a)] by apply: valid1.
have sim : simple U (vertex0 tm0) nf (su_v0 s) (su_v s) [:: (b, Some a)].
  by apply: simple1; left; rewrite /sp_state nb nb0.
have kn : known U (su_v s).
  by apply: sub_all (i_vo (reach_inv tok re)) => v /andP[].
have [s1 [d [f [u [e e1 er dec]]]]] := flip_step tok rpos re tr val sim.
rewrite /insertion_step /= addn0 -/a e /= e1 corrE // expr1.
have c0 : 0 <= beta * (size U)%:R / (sp_order (su_v s)).+1%:R.
  by rewrite mulr_ge0 ?invr_ge0 ?ler0n // mulr_ge0 ?ler0n // ltW.
have eA : sp_ins_rate G0 U x0 nf beta us (su_v s) vs' = `|d * f * u * (beta * (size U)%:R / (sp_order (su_v s)).+1%:R) * us|.
  by rewrite er -/vs' /sp_ins_rate [RHS]normrM [X in _ = X * _]normrM (ger0_norm c0) (gtr0_norm upos).
have nz : d * f * u * (beta * (size U)%:R / (sp_order (su_v s)).+1%:R) * us != 0 -> d * f * u != 0.
  by rewrite !mulf_eq0 !negb_or => /andP[/andP[/andP[/andP[-> ->] ->] _] _].
by have [s2 e2 [r2 t2 v2 v02]] := dec _ _ (r :: rs) eA nz; exists s2.
Qed.
Print Assumptions C32_insertion.

(* A removal: the vertex is the k-th interacting one, k from the random number; accepted
   exactly when the next random number is below |W'/W| n/(beta N) / us. *)
Theorem C32_removal :
  forall (F : numFieldType) (Tm : eqType) (ani : F) (G0 : sop Tm -> sop Tm -> F) (U : seq (vdef F))
         (x0 : sop Tm) (nf : nat) (tm0 : Tm) (junk : fmat F) (beta us : F) (R : Type) (rval : R -> F)
         (ridx : nat -> R -> nat) (s : sub F Tm) (r1 r2 : R) (rs : seq R),
    sp_types_ok U ani nf -> random_ok rval ridx -> 0 < beta -> 0 < us ->
    reach ani G0 U x0 nf tm0 junk s -> su_trying s -> (0 < sp_order (su_v s))%N ->
    (forall p, (p < size (su_v s))%N -> v_af (nth (vertex0 tm0) (su_v0 s) p) = v_af (nth (vertex0 tm0) (su_v s) p)) ->
    let p := nth 0%N (sp_int_positions (vertex0 tm0) (su_v s)) (ridx (sp_order (su_v s)) r1) in
    let vs' := sp_flip (vertex0 tm0) (su_v s) [:: (p, None)] in
    let go := rval r2 < sp_rem_rate G0 U x0 nf beta us (su_v s) vs' in
    exists2 s2, removal_step ani U tm0 junk beta rval ridx s us (r1 :: r2 :: rs) =
        Ok (if go then weight G0 U x0 nf vs' / weight G0 U x0 nf (su_v s) else 1, s2, rs) &
      [/\ reach ani G0 U x0 nf tm0 junk s2, su_trying s2, su_v s2 = (if go then vs' else su_v s) & su_v0 s2 = su_v0 s].
Proof.
move=> F Tm ani G0 U x0 nf tm0 junk beta us R rval ridx s r1 r2 rs tok [rpos rok] bpos upos re tr op af p vs'; cbv zeta.
have kn : known U (su_v s).
  by apply: sub_all (i_vo (reach_inv tok re)) => v /andP[].
rewrite /removal_step /pick_removed posE // size_positions op.
have kl := rok _ r1 op; rewrite [X in obind X _]/= leqNgt kl [X in obind X _]/= take_swap ?size_positions // obOk -/p /=.
have pi : p \in sp_int_positions (vertex0 tm0) (su_v s) by apply: mem_nth; rewrite size_positions.
move: (pi); rewrite mem_filter mem_iota add0n => /andP[pint pl].
have val : valid_req U (vertex0 tm0) (su_v s) [:: (p, None)] by apply: valid1.
have sim : simple U (vertex0 tm0) nf (su_v0 s) (su_v s) [:: (p, None)].
  apply: simple1; rewrite /sp_state (negbTE pint); case: (v_non (nth (vertex0 tm0) (su_v0 s) p)); first by right.
  by left; rewrite af.
have [s1 [d [f [u [e e1 er dec]]]]] := flip_step tok rpos re tr val sim.
rewrite e /= expr1.
have c0 : 0 <= (sp_order (su_v s))%:R / (beta * (size U)%:R).
  by rewrite mulr_ge0 ?ler0n // invr_ge0 mulr_ge0 ?ler0n // ltW.
have eA : sp_rem_rate G0 U x0 nf beta us (su_v s) vs' = `|d * f * u * ((sp_order (su_v s))%:R / (beta * (size U)%:R)) * us^-1|.
  by rewrite er /sp_rem_rate [RHS]normrM [X in _ = X * _]normrM (ger0_norm c0) normfV (gtr0_norm upos).
have nz : d * f * u * ((sp_order (su_v s))%:R / (beta * (size U)%:R)) * us^-1 != 0 -> d * f * u != 0.
  by rewrite !mulf_eq0 !negb_or => /andP[/andP[/andP[/andP[-> ->] ->] _] _].
by have [s2 e2 [r2' t2 v2 v02]] := dec _ _ (r2 :: rs) eA nz; exists s2.
Qed.
Print Assumptions C32_removal.

(* The positions the removal chooses among are exactly those of the interacting vertices,
   each once. *)
Theorem C32_removal_positions :
  forall (Tm : eqType) (d : vertex Tm) (vs : seq (vertex Tm)),
    [/\ uniq (sp_int_positions d vs), size (sp_int_positions d vs) = sp_order vs &
        forall p, (p \in sp_int_positions d vs) = (p < size vs)%N && ~~ v_non (nth d vs p)].
Proof.
move=> Tm d vs; split; first by rewrite filter_uniq ?iota_uniq.
  rewrite /sp_int_positions /sp_order !size_filter.
  have e : vs = [seq nth d vs i | i <- iota 0 (size vs)] by rewrite map_nth_iota0 // take_size.
  by rewrite [RHS](congr1 (count _) e) count_map.
by move=> p; rewrite mem_filter mem_iota add0n /= andbC.
Qed.
Print Assumptions C32_removal_positions.

(* The correction factor of an insertion times the one of a removal that starts with one more
   vertex is one. *)
Theorem C32_factors :
  forall (F : numFieldType) (Tm : eqType) (U : seq (vdef F)) (beta : F) (tm0 : Tm) (R : Type)
         (ridx : nat -> R -> nat) (vs ws : seq (vertex Tm)) (r : R) (rs : seq R),
    0 < beta -> (0 < size U)%N -> (forall N, (0 < N)%N -> (ridx N r < N)%N) ->
    all (fun v => v_type v < size U)%N vs -> all (fun v => v_type v < size U)%N ws ->
    sp_order ws = (sp_order vs).+1 ->
    exists c pos, pick_removed U tm0 beta ridx ws (r :: rs) = Ok (c, pos, rs) /\
      corr_insertion U beta vs * c = 1.
Proof.
move=> F Tm U beta tm0 R ridx vs ws r rs bpos Up rok kv kw e.
rewrite /pick_removed posE // size_positions e /= leqNgt rok //=.
eexists _, _; split; first by reflexivity.
rewrite corrE // /sv_size mulrC mulrA mulfVK ?divff // ?pnatr_eq0 //.
by rewrite mulf_neq0 ?pnatr_eq0 -?lt0n // gt_eqF.
Qed.
Print Assumptions C32_factors.

(* Detailed balance, insertion against removal: density of the configuration times density
   of the proposal times acceptance probability is the same in both directions; and the
   removal leads back. *)
Theorem C32_balance :
  forall (F : numFieldType) (Tm : eqType) (G0 : sop Tm -> sop Tm -> F) (U : seq (vdef F))
         (x0 : sop Tm) (nf : nat) (tm0 : Tm) (beta us : F) (vs : seq (vertex Tm)) (p : nat),
    0 < beta -> 0 < us -> (0 < size U)%N -> (p < size vs)%N -> v_non (nth (vertex0 tm0) vs p) ->
    weight G0 U x0 nf vs != 0 ->
    let vs' := sp_flip (vertex0 tm0) vs [:: (p, Some (v_af (nth (vertex0 tm0) vs p)))] in
    [/\ sp_target G0 U x0 nf us vs * sp_propose_ins U beta (nth (vertex0 tm0) vs' p) *
          Num.min 1 (sp_ins_rate G0 U x0 nf beta us vs vs') =
        sp_target G0 U x0 nf us vs' * sp_propose_rem F vs' *
          Num.min 1 (sp_rem_rate G0 U x0 nf beta us vs' vs),
        p \in sp_int_positions (vertex0 tm0) vs' & sp_flip (vertex0 tm0) vs' [:: (p, None)] = vs].
Proof.
move=> F Tm G0 U x0 nf tm0 beta us vs p bpos upos Up pl np w0 vs'; split; first exact: balance_on.
  by rewrite mem_filter mem_iota add0n size_sp_flip pl andbT flip1_nth // eqxx.
apply: (@eq_from_nth _ (vertex0 tm0)); first by rewrite !size_sp_flip.
move=> i; rewrite !size_sp_flip => il; rewrite flip1_nth ?size_sp_flip // !flip1_nth // eqxx.
case: eqP => // ->; move: np; by case: (nth _ vs p) => [[[[t a] tm] non] u]; rewrite /v_non /= => ->.
Qed.
Print Assumptions C32_balance.

(* A change of the state of a vertex: a new state is drawn until it differs from the old one,
   accepted exactly when the next random number is below |W'/W|. *)
Theorem C32_spin_flip :
  forall (F : numFieldType) (Tm : eqType) (ani : F) (G0 : sop Tm -> sop Tm -> F) (U : seq (vdef F))
         (x0 : sop Tm) (nf : nat) (tm0 : Tm) (junk : fmat F) (R : Type) (rval : R -> F)
         (ridx : nat -> R -> nat) (s : sub F Tm) (p : nat) (same : seq R) (r1 r2 : R) (rs : seq R),
    let v := nth (vertex0 tm0) (su_v s) p in
    let n := vd_naf (sp_def U v) in
    sp_types_ok U ani nf -> random_ok rval ridx ->
    reach ani G0 U x0 nf tm0 junk s -> su_trying s -> (p < size (su_v s))%N ->
    nth (vertex0 tm0) (su_v0 s) p = v -> (1 < n)%N ->
    all (fun r => ridx n r == v_af v) same -> ridx n r1 != v_af v ->
    let vs' := sp_flip (vertex0 tm0) (su_v s) [:: (p, Some (ridx n r1))] in
    let q := weight G0 U x0 nf vs' / weight G0 U x0 nf (su_v s) in
    exists2 s2, spin_flip_step ani U tm0 junk rval ridx s p (same ++ r1 :: r2 :: rs) =
        Ok (if rval r2 < `|q| then q else 1, s2, rs) &
      [/\ reach ani G0 U x0 nf tm0 junk s2, su_trying s2,
          su_v s2 = (if rval r2 < `|q| then vs' else su_v s) & su_v0 s2 = su_v0 s].
Proof.
move=> F Tm ani G0 U x0 nf tm0 junk R rval ridx s p same r1 r2 rs v n tok [rpos rok] re tr pl ev n1 sm ne vs'; cbv zeta.
have /andP[tv _] := all_nthP (vertex0 tm0) (i_vo (reach_inv tok re)) _ pl.
rewrite /spin_flip_step leqNgt pl /= leqNgt tv /= -/v (_ : vd_naf (get_vertex U (v_type v)) = n) // leqNgt n1 /=.
have -> : draw_spin ridx n (v_af v) (same ++ r1 :: r2 :: rs) = Ok (ridx n r1, r2 :: rs).
  by elim: (same) sm => /= [_|x l ih /andP[-> /ih]] //; rewrite (negbTE ne).
have val : valid_req U (vertex0 tm0) (su_v s) [:: (p, Some (ridx n r1))].
  by apply: valid1 => //; apply: rok; apply: ltnW.
have sim : simple U (vertex0 tm0) nf (su_v0 s) (su_v s) [:: (p, Some (ridx n r1))] by apply: simple1; left; rewrite ev.
have [s1 [d [f [u [e e1 er dec]]]]] := flip_step tok rpos re tr val sim.
rewrite obOk e /= -er.
have [//|s2 e2 [r2' t2 v2 v02]] := dec _ _ (r2 :: rs) (erefl `|d * f * u|).
by rewrite -er in e2 *; exists s2.
Qed.
Print Assumptions C32_spin_flip.

Theorem C32_spin_flip_balance :
  forall (F : numFieldType) (Tm : eqType) (G0 : sop Tm -> sop Tm -> F) (U : seq (vdef F))
         (x0 : sop Tm) (nf : nat) (tm0 : Tm) (us : F) (vs : seq (vertex Tm)) (p a : nat),
    (p < size vs)%N -> ~~ v_non (nth (vertex0 tm0) vs p) -> weight G0 U x0 nf vs != 0 ->
    let vs' := sp_flip (vertex0 tm0) vs [:: (p, Some a)] in
    sp_target G0 U x0 nf us vs * Num.min 1 `|weight G0 U x0 nf vs' / weight G0 U x0 nf vs| =
    sp_target G0 U x0 nf us vs' * Num.min 1 `|weight G0 U x0 nf vs / weight G0 U x0 nf vs'| /\
    sp_flip (vertex0 tm0) vs' [:: (p, Some (v_af (nth (vertex0 tm0) vs p)))] = vs.
Proof.
move=> F Tm G0 U x0 nf tm0 us vs p a pl np w0 vs'; split; first exact: balance_state.
apply: (@eq_from_nth _ (vertex0 tm0)); first by rewrite !size_sp_flip.
move=> i; rewrite !size_sp_flip => il; rewrite flip1_nth ?size_sp_flip // !flip1_nth // eqxx.
case: eqP => // ->; move: np; by case: (nth _ vs p) => [[[[t b] tm] non] u]; rewrite /v_non /= => /negbTE ->.
Qed.
Print Assumptions C32_spin_flip_balance.

(* A shift: vertex p is replaced by the copy q; accepted exactly when the random number is
   below |W'/W|. *)
Theorem C32_shift :
  forall (F : numFieldType) (Tm : eqType) (ani : F) (G0 : sop Tm -> sop Tm -> F) (U : seq (vdef F))
         (x0 : sop Tm) (nf : nat) (tm0 : Tm) (junk : fmat F) (R : Type) (rval : R -> F)
         (s : sub F Tm) (p q : nat) (w : F) (r : R) (rs : seq R),
    let v := nth (vertex0 tm0) (su_v s) p in
    let v' := nth (vertex0 tm0) (su_v s) q in
    sp_types_ok U ani nf -> (forall r, 0 <= rval r) ->
    reach ani G0 U x0 nf tm0 junk s -> su_trying s -> (p < q)%N -> (q < size (su_v s))%N ->
    nth (vertex0 tm0) (su_v0 s) p = v -> nth (vertex0 tm0) (su_v0 s) q = v' ->
    ~~ v_non v -> v_non v' -> v_type v' = v_type v -> (v_af v < vd_naf (sp_def U v))%N ->
    let vs' := sp_flip (vertex0 tm0) (su_v s) [:: (p, None); (q, Some (v_af v))] in
    let x := weight G0 U x0 nf vs' / weight G0 U x0 nf (su_v s) in
    exists2 s2, shift_loop ani U tm0 junk rval [:: p] q s w (r :: rs) =
        Ok (if rval r < `|x| then w * x else w, s2, rs) &
      [/\ reach ani G0 U x0 nf tm0 junk s2, su_trying s2,
          su_v s2 = (if rval r < `|x| then vs' else su_v s) & su_v0 s2 = su_v0 s].
Proof.
move=> F Tm ani G0 U x0 nf tm0 junk R rval s p q w r rs v v' tok rpos re tr pq ql e1 e2 n1 n2 ty al vs' x.
have h : shifts ani G0 U x0 nf tm0 junk s [:: p] q.
  split=> //=; first by rewrite pq.
  - by rewrite addn1.
  - by move=> p'; rewrite inE => /eqP ->; rewrite e1.
  by case=> // _ /=; rewrite addn0 e2; split.
by have [s2 -> [[h1 h2 h3 h4] _]] := shift_step tok rpos r rs w h; exists s2.
Qed.
Print Assumptions C32_shift.

Theorem C32_shift_balance :
  forall (F : numFieldType) (Tm : eqType) (G0 : sop Tm -> sop Tm -> F) (U : seq (vdef F))
         (x0 : sop Tm) (nf : nat) (tm0 : Tm) (us : F) (vs : seq (vertex Tm)) (p q a : nat),
    (p < size vs)%N -> (q < size vs)%N ->
    ~~ v_non (nth (vertex0 tm0) vs p) -> v_non (nth (vertex0 tm0) vs q) ->
    v_type (nth (vertex0 tm0) vs q) = v_type (nth (vertex0 tm0) vs p) -> weight G0 U x0 nf vs != 0 ->
    let vs' := sp_flip (vertex0 tm0) vs [:: (p, None); (q, Some a)] in
    sp_target G0 U x0 nf us vs * Num.min 1 `|weight G0 U x0 nf vs' / weight G0 U x0 nf vs| =
    sp_target G0 U x0 nf us vs' * Num.min 1 `|weight G0 U x0 nf vs / weight G0 U x0 nf vs'|.
Proof. by move=> F Tm G0 U x0 nf tm0 us vs p q a pl ql np nq tq w0; apply: balance_shift. Qed.
Print Assumptions C32_shift_balance.

(* ------------------------------------------------------------------ C33 *)

(* Along every run of the sampling loop, the vertices between updates are all interacting and
   at most max_order. *)
Theorem C33_order_limit :
  forall (F : numFieldType) (Tm : eqType) (ani : F) (G0 : sop Tm -> sop Tm -> F) (U : seq (vdef F))
         (x0 : sop Tm) (tm0 : Tm) (junk : fmat F) (beta : F) (kmax max_order : nat)
         (R : Type) (rval : R -> F) (rhalf : R -> bool) (ridx : nat -> R -> nat) (rtime : R -> Tm)
         (rshift : Tm -> R -> Tm) (n_ins_rem n_shift n_spin_flip mperiod : nat) (maps : seq (seq nat))
         (nf : nat) (jk : F) (n : nat) (x y : sampler F Tm R),
    (forall N r, (0 < N)%N -> (ridx N r < N)%N) ->
    iter_out (update ani G0 U x0 tm0 junk beta kmax max_order rval rhalf ridx rtime rshift
                n_ins_rem n_shift n_spin_flip mperiod maps nf jk) n x = Ok y ->
    all (fun v => ~~ v_non v) (su_v (sm_sub nf jk x)) -> (size (su_v (sm_sub nf jk x)) <= max_order)%N ->
    all (fun v => ~~ v_non v) (su_v (sm_sub nf jk y)) /\ (size (su_v (sm_sub nf jk y)) <= max_order)%N.
Proof.
move=> F Tm ani G0 U x0 tm0 junk beta kmax mo R rval rhalf ridx rtime rshift a b c d maps nf jk n x y rok e ai sz.
apply: (iter_out_inv (P := fun z => idle_ok mo (sm_sub nf jk z)) _ _ e) => // u v ou ev.
exact: (update_count rok ev ou).
Qed.
Print Assumptions C33_order_limit.

(* Inside a session of insertions and removals the number of interacting vertices never
   exceeds the limit either: after any number of steps. *)
Theorem C33_in_session :
  forall (F : numFieldType) (Tm : eqType) (ani : F) (U : seq (vdef F)) (tm0 : Tm) (junk : fmat F)
         (beta : F) (max_order : nat) (R : Type) (rval : R -> F) (ridx : nat -> R -> nat)
         (kinds : seq bool) (ins : seq (nat * nat)) (us : F) (s : sub F Tm) (w : F) (c : stats)
         (rs : seq R) (w2 : F) (s2 : sub F Tm) (c2 : stats) (rs2 : seq R),
    (forall N r, (0 < N)%N -> (ridx N r < N)%N) ->
    ins_rem_loop ani U tm0 junk beta max_order rval ridx kinds ins us s w c rs = Ok (w2, s2, c2, rs2) ->
    (sp_order (su_v s) <= max_order)%N -> (sp_order (su_v s2) <= max_order)%N.
Proof.
move=> F Tm ani U tm0 junk beta mo R rval ridx kinds ins us s w c rs w2 s2 c2 rs2 rok e.
rewrite /sp_order !size_filter; exact: ins_rem_count e.
Qed.
Print Assumptions C33_in_session.

(* ------------------------------------------------------------------ C34 *)

(* Whatever a global update does, the object of the caller stays as it was. *)
Theorem C34_no_effect :
  forall (F : numFieldType) (Tm : eqType) (ani : F) (G0 : sop Tm -> sop Tm -> F) (U : seq (vdef F))
         (x0 : sop Tm) (R : Type) (rval : R -> F) (nf : nat) (maps : seq (seq nat)) (h : store F Tm)
         (p : nat) (jk : F) (rs : seq R) g,
    (p < size h)%N -> global_updates ani G0 U x0 rval nf maps h p jk rs = Ok g ->
    nth (sub_new Tm nf jk) g.1.1 p = nth (sub_new Tm nf jk) h p.
Proof. by move=> F Tm ani G0 U x0 R rval nf maps h p jk rs g pl e; have [] := global_store pl e. Qed.
Print Assumptions C34_no_effect.

(* ------------------------------------------------------------------ C35 *)

(* A file of permutations is accepted, and the list of updates then consists of permutations
   and contains with every map one that undoes it. *)
Theorem C35_permutations_partial :
  forall (n : nat) (ms : seq (seq nat)) (rest : seq int),
    (forall m, m \in ms -> is_permutation n m) ->
    exists2 l, read_global_updates n (sp_map_file ms ++ rest) = Ok l &
      {subset ms <= l} /\
      forall m, m \in l -> is_permutation n m /\
        exists2 m', m' \in l & undoes n m m' /\ undoes n m' m.
Proof.
move=> n ms rest pm; rewrite /sp_map_file /=.
have ok : all (fun m => (size m == n) && all (fun d => d < n)%N m) ms.
  apply/allP => m mi; have [sz pe] := pm _ mi; rewrite sz eqxx; apply/allP => d.
  by rewrite (perm_mem pe) mem_iota.
rewrite (read_maps_enc None None rest ok) /=; eexists; first by reflexivity.
have inl m : (m \in sort lexle (undup (flatten [seq [:: m; reverse_map n m] | m <- ms])))
   = has (fun m0 => (m == m0) || (m == reverse_map n m0)) ms.
  rewrite mem_sort mem_undup; apply/flatten_mapP/hasP => -[m0 mi h]; exists m0 => //; move: h.
    by rewrite !inE.
  by rewrite !inE.
split; first by move=> m mi; rewrite inl; apply/hasP; exists m; rewrite ?eqxx.
move=> m; rewrite inl => /hasP[m0 mi /orP[] /eqP ->].
  split; first exact: pm.
  exists (reverse_map n m0); first by rewrite inl; apply/hasP; exists m0; rewrite ?eqxx ?orbT.
  by split; [apply: reverse_undoes; apply: pm | apply: reverse_undoes2; apply: pm].
split; first by apply: reverse_perm; apply: pm.
exists m0; first by rewrite inl; apply/hasP; exists m0; rewrite ?eqxx.
by split; [apply: reverse_undoes2; apply: pm | apply: reverse_undoes; apply: pm].
Qed.
Print Assumptions C35_permutations_partial.

(* What the parser checks: every map it reads has an image below n for every type. *)
Theorem C35_accepted_maps :
  forall (n k : nat) (ts : seq int) (l : seq (seq nat)),
    read_global_updates n (Posz k :: ts) = Ok l ->
    exists ms, [/\ size ms = k, forall m, m \in ms -> size m = n /\ all (fun d => d < n)%N m &
      forall m, (m \in l) = has (fun m0 => (m == m0) || (m == reverse_map n m0)) ms].
Proof.
move=> n k ts l /= /obI[l0 /read_maps_in[ms [-> [sz al]]] [<-]]; exists ms; split=> //.
  by move=> m /(allP al)/andP[/eqP].
move=> m; rewrite mem_sort mem_undup; apply/flatten_mapP/hasP => -[m0 mi h]; exists m0 => //; move: h.
  by rewrite !inE.
by rewrite !inE.
Qed.
Print Assumptions C35_accepted_maps.

(* A map that is no permutation is accepted, and no map of the list undoes it. *)
Theorem C35_not_permutation_refuted :
  exists n ts l m, [/\ read_global_updates n ts = Ok l, m \in l, ~ is_permutation n m &
    forall m', m' \in l -> ~ undoes n m m'].
Proof.
exists 2%N, [:: Posz 1; Posz 0; Posz 0; Posz 1; Posz 0], [:: [:: 0; 0]; [:: 1; 0]]%N, [:: 0; 0]%N; split=> //.
  by case=> _; vm_compute.
move=> m'; rewrite !inE => /orP[] /eqP -> h.
  by have := h 1%N isT.
by have := h 0%N isT.
Qed.
Print Assumptions C35_not_permutation_refuted.

Example C35_case : read_global_updates 3 (sp_map_file [:: [:: 1; 2; 0]]%N) = Ok [:: [:: 1; 2; 0]; [:: 2; 0; 1]]%N.
Proof. by vm_compute. Qed.

(* ------------------------------------------------------------------ C59 *)

(* A session of insertions and removals, started from any reachable object between sessions,
   either runs out of random numbers or ends normally; the number it returns is the ratio of
   the weights after and before, and the object is reachable again. *)
Theorem C59_ins_rem_ratio :
  forall (F : numFieldType) (Tm : eqType) (ani : F) (G0 : sop Tm -> sop Tm -> F) (U : seq (vdef F))
         (x0 : sop Tm) (nf : nat) (tm0 : Tm) (junk : fmat F) (beta us : F) (kmax max_order : nat)
         (R : Type) (rval : R -> F) (rhalf : R -> bool) (ridx : nat -> R -> nat) (rtime : R -> Tm)
         (s : sub F Tm) (c : stats) (rs : seq R),
    sp_types_ok U ani nf -> random_ok rval ridx -> 0 < beta -> 0 < us ->
    (forall t, (t < size U)%N -> (0 < vd_naf (nth (vdef0 F) U t))%N) ->
    (forall v : vertex Tm, (v_type v < size U)%N -> sp_covers U nf v) ->
    reach ani G0 U x0 nf tm0 junk s -> ~~ su_trying s ->
    let res := do_ins_rem ani G0 U x0 tm0 junk beta kmax max_order rval rhalf ridx rtime s us c rs in
    res = Diverge \/
    exists w s2 c2 rs2, [/\ res = Ok (w, s2, c2, rs2), reach ani G0 U x0 nf tm0 junk s2, ~~ su_trying s2 &
      w = weight G0 U x0 nf (su_v s2) / weight G0 U x0 nf (su_v s)].
Proof.
move=> F Tm ani G0 U x0 nf tm0 junk beta us kmax mo R rval rhalf ridx rtime s c rs tok [rpos rok] bpos upos afp cov re tr.
have [->|[t [w [s2 [c2 [rs2 [e [h1 h2] h3 _ _]]]]]]] :=
  do_ins_rem_ok kmax mo rhalf rtime tok rok rpos bpos upos afp cov c rs re tr; first by left.
by right; exists w, s2, c2, rs2.
Qed.
Print Assumptions C59_ins_rem_ratio.

Theorem C59_spin_flip_ratio :
  forall (F : numFieldType) (Tm : eqType) (ani : F) (G0 : sop Tm -> sop Tm -> F) (U : seq (vdef F))
         (x0 : sop Tm) (nf : nat) (tm0 : Tm) (junk : fmat F) (kmax : nat)
         (R : Type) (rval : R -> F) (ridx : nat -> R -> nat) (s : sub F Tm) (rs : seq R),
    sp_types_ok U ani nf -> random_ok rval ridx ->
    reach ani G0 U x0 nf tm0 junk s -> ~~ su_trying s ->
    let res := do_spin_flip ani G0 U x0 tm0 junk kmax rval ridx s rs in
    res = Diverge \/
    exists w s2 rs2, [/\ res = Ok (w, s2, rs2), reach ani G0 U x0 nf tm0 junk s2, ~~ su_trying s2,
      w = weight G0 U x0 nf (su_v s2) / weight G0 U x0 nf (su_v s) & size (su_v s2) = size (su_v s)].
Proof.
move=> F Tm ani G0 U x0 nf tm0 junk kmax R rval ridx s rs tok [rpos rok] re tr.
exact: do_spin_flip_ok.
Qed.
Print Assumptions C59_spin_flip_ratio.

Theorem C59_shift_ratio :
  forall (F : numFieldType) (Tm : eqType) (ani : F) (G0 : sop Tm -> sop Tm -> F) (U : seq (vdef F))
         (x0 : sop Tm) (nf : nat) (tm0 : Tm) (junk : fmat F) (kmax : nat)
         (R : Type) (rval : R -> F) (ridx : nat -> R -> nat) (rshift : Tm -> R -> Tm) (s : sub F Tm) (rs : seq R),
    sp_types_ok U ani nf -> random_ok rval ridx ->
    (forall v : vertex Tm, (v_type v < size U)%N -> sp_covers U nf v) ->
    reach ani G0 U x0 nf tm0 junk s -> ~~ su_trying s ->
    let res := do_shift ani G0 U x0 tm0 junk kmax rval ridx rshift s rs in
    res = Diverge \/
    exists w s2 rs2, [/\ res = Ok (w, s2, rs2), reach ani G0 U x0 nf tm0 junk s2, ~~ su_trying s2,
      w = weight G0 U x0 nf (su_v s2) / weight G0 U x0 nf (su_v s) & size (su_v s2) = size (su_v s)].
Proof.
move=> F Tm ani G0 U x0 nf tm0 junk kmax R rval ridx rshift s rs tok [rpos rok] cov re tr.
exact: do_shift_ok.
Qed.
Print Assumptions C59_shift_ratio.

(* ------------------------------------------------------------------ C36 *)

(* A session of insertions and removals counts 2*k_ins_max attempts, and counts as accepted
   exactly the steps that change the weight.  [tr] is the sequence of configurations. *)
Theorem C36_counters_partial :
  forall (F : numFieldType) (Tm : eqType) (ani : F) (G0 : sop Tm -> sop Tm -> F) (U : seq (vdef F))
         (x0 : sop Tm) (nf : nat) (tm0 : Tm) (junk : fmat F) (beta us : F) (kmax max_order : nat)
         (R : Type) (rval : R -> F) (rhalf : R -> bool) (ridx : nat -> R -> nat) (rtime : R -> Tm)
         (s : sub F Tm) (c : stats) (rs : seq R) (w : F) (s2 : sub F Tm) (c2 : stats) (rs2 : seq R),
    sp_types_ok U ani nf -> random_ok rval ridx -> 0 < beta -> 0 < us ->
    (forall t, (t < size U)%N -> (0 < vd_naf (nth (vdef0 F) U t))%N) ->
    (forall v : vertex Tm, (v_type v < size U)%N -> sp_covers U nf v) ->
    reach ani G0 U x0 nf tm0 junk s -> ~~ su_trying s ->
    do_ins_rem ani G0 U x0 tm0 junk beta kmax max_order rval rhalf ridx rtime s us c rs = Ok (w, s2, c2, rs2) ->
    exists vs tr, [/\ [seq v <- vs | ~~ v_non v] = su_v s, sp_trace (vertex0 tm0) vs tr,
      su_v s2 = [seq v <- last vs tr | ~~ v_non v], size tr = (2 * kmax)%N &
      let k := sp_changes_weight G0 U x0 nf vs tr in c2 = (c.1 + k, c.2 + (2 * kmax - k))%N /\ (k <= 2 * kmax)%N].
Proof.
move=> F Tm ani G0 U x0 nf tm0 junk beta us kmax mo R rval rhalf ridx rtime s c rs w s2 c2 rs2 tok [rpos rok] bpos upos afp cov re tr e.
have := do_ins_rem_ok kmax mo rhalf rtime tok rok rpos bpos upos afp cov c rs re tr.
rewrite e; case=> // -[t [w' [s2' [c2' [rs2' [[_ <- <- _] _ _ [vs h1 [h2 h3 h4]] h5]]]]]].
exists vs, t; split=> //; cbv zeta; split=> //; rewrite -h5.
exact: (changes_le _ _ tok bpos upos).
Qed.
Print Assumptions C36_counters_partial.

(* After any history of calls of accepted() and rejected() the reported numbers are the
   fractions of the two kinds of calls; without calls they are 0/0. *)
Theorem C36_rates :
  forall (F : numFieldType) (h : seq bool),
    let c := foldl (fun c b => if b then accepted c else rejected c) stats0 h in
    get_result F c =
    if h is [::] then None
    else Some ((count id h)%:R / (size h)%:R, (count negb h)%:R / (size h)%:R).
Proof.
move=> F h; cbv zeta.
have e a b : foldl (fun c b => if b then accepted c else rejected c) (a, b) h = (a + count id h, b + count negb h)%N.
  elim: h a b => [|x h ih] a b /=; first by rewrite !addn0.
  by case: x; rewrite /accepted /rejected ih /= ?add0n ?add1n !addSn ?addnS.
rewrite e /get_result /= !add0n count_predC.
by case: h {e}.
Qed.
Print Assumptions C36_rates.

(* Shift moves are never counted: along every run the counters of shifts keep their value,
   initially (0, 0), whose rate is 0/0. *)
Theorem C36_shift_never_counted :
  forall (F : numFieldType) (Tm : eqType) (ani : F) (G0 : sop Tm -> sop Tm -> F) (U : seq (vdef F))
         (x0 : sop Tm) (tm0 : Tm) (junk : fmat F) (beta : F) (kmax max_order : nat)
         (R : Type) (rval : R -> F) (rhalf : R -> bool) (ridx : nat -> R -> nat) (rtime : R -> Tm)
         (rshift : Tm -> R -> Tm) (n_ins_rem n_shift n_spin_flip mperiod : nat) (maps : seq (seq nat))
         (nf : nat) (jk : F) (n : nat) (x y : sampler F Tm R),
    iter_out (update ani G0 U x0 tm0 junk beta kmax max_order rval rhalf ridx rtime rshift
                n_ins_rem n_shift n_spin_flip mperiod maps nf jk) n x = Ok y ->
    sm_cs x = stats0 -> get_result F (sm_cs y) = None.
Proof.
move=> F Tm ani G0 U x0 tm0 junk beta kmax mo R rval rhalf ridx rtime rshift a b c d maps nf jk n x y e e0.
have -> // : sm_cs y = stats0.
apply: (iter_out_inv (P := fun z => sm_cs z = stats0) _ _ e) => // u v <- eu.
exact: (update_shift_stats eu).
Qed.
Print Assumptions C36_shift_never_counted.

(* ------------------------------------------------------------------ C60 *)

(* compute_weight of a configuration is its weight. *)
Theorem C60_compute_weight :
  forall (F : numFieldType) (Tm : eqType) (ani : F) (G0 : sop Tm -> sop Tm -> F) (U : seq (vdef F))
         (x0 : sop Tm) (nf : nat) (vs : seq (vertex Tm)),
    sp_types_ok U ani nf -> all (sp_vertex_ok U) vs -> all (fun v => ~~ v_non v) vs ->
    compute_weight G0 U x0 nf vs [seq vd_rank (sp_def U v) | v <- vs] = Ok (weight G0 U x0 nf vs).
Proof.
move=> F Tm ani G0 U x0 nf vs tok ok it; apply: (cw_weight G0 x0 tok) => //.
elim: vs ok it => //= v vs ih /andP[ov /ih h] /andP[nv /h ->].
by move: ov; rewrite /sp_vertex_ok (negbTE nv) => ->.
Qed.
Print Assumptions C60_compute_weight.

(* One global update: accepted exactly when the random number is below the ratio of the
   weights; the weight handed on is that of the configuration handed on. *)
Theorem C60_global_step :
  forall (F : numFieldType) (Tm : eqType) (ani : F) (G0 : sop Tm -> sop Tm -> F) (U : seq (vdef F))
         (x0 : sop Tm) (nf : nat) (R : Type) (rval : R -> F) (vs : seq (vertex Tm)) (m : seq nat) (r : R) (rs : seq R),
    sp_types_ok U ani nf -> all (sp_vertex_ok U) vs -> all (fun v => ~~ v_non v) vs ->
    size m = size U ->
    (forall t, (t < size U)%N -> [/\ (nth 0%N m t < size U)%N,
       vd_rank (nth (vdef0 F) U (nth 0%N m t)) = vd_rank (nth (vdef0 F) U t) &
       vd_naf (nth (vdef0 F) U (nth 0%N m t)) = vd_naf (nth (vdef0 F) U t)]) ->
    let vs' := [seq (nth 0%N m (v_type v), v_af v, v_time v, v_non v, v_uid v) | v <- vs] in
    let W := weight G0 U x0 nf in
    global_update_impl G0 U x0 rval nf vs [seq vd_rank (sp_def U v) | v <- vs] m (W vs) (r :: rs) =
    Ok (if rval r < `|W vs' / W vs| then (vs', W vs', rs) else (vs, W vs, rs)).
Proof.
move=> F Tm ani G0 U x0 nf R rval vs m r rs tok ok it sm hm vs' W.
have ty : all (fun v => v_type v < size m)%N vs by rewrite sm; apply: sub_all ok => v /andP[].
rewrite /global_update_impl ty /= (_ : map (transform m) vs = vs') //.
have -> : [seq vd_rank (sp_def U v) | v <- vs] = [seq vd_rank (sp_def U v) | v <- vs'].
  rewrite -map_comp; apply/eq_in_map => v vi /=.
  by have /andP[tv _] := allP ok _ vi; have [_ h _] := hm _ tv; rewrite /sp_def /v_type /= h.
rewrite (C60_compute_weight G0 x0 tok) ?obOk; first by rewrite -/W /=; case: ifP.
  rewrite all_map; apply: sub_all ok => v /andP[tv av] /=.
  have [h1 _ h3] := hm _ tv; move: av; rewrite /sp_vertex_ok /sp_def /v_non /v_type /v_af /= in h1 h3 *.
  by rewrite h1 h3.
by rewrite all_map; apply: sub_all it.
Qed.
Print Assumptions C60_global_step.

(* ---- concrete cases ---- *)

(* an interaction whose single-vertex configurations have weight 1 *)
Definition UY : seq (vdef [numFieldType of rat]) :=
  [:: VDef 2 [:: 0; 1]%N [:: 0; 0; 0; 0]%N 2 (r_ 4 25 : [numFieldType of rat]) (fun a r => if a == r then r_ 3 1 else r_ (-2) 1)].
Lemma tokY : sp_types_ok UY aniX 2. Proof. by vm_compute. Qed.
Notation wY := (weight (F := [numFieldType of rat]) (Tm := [eqType of nat]) GX UY xX 2).
Notation reachY := (reach (F := [numFieldType of rat]) aniX GX UY xX 2 0%N jX).

Lemma weightY (t u : nat) : wY [:: (0%N, 0%N, t, false, u)] = 1.
Proof.
rewrite /weight !big_ord_recl big_ord0 big_cons big_nil !mulr1.
by rewrite !det_ofE /fdet [size _]/= !det_mx11 !mxE /sp_mat /= /GX /= eqxx; apply/eqP; vm_compute.
Qed.

(* random numbers: every number has the value 0 *)
Definition rvY (r : nat) : [numFieldType of rat] := 0.
Definition rhY (r : nat) : bool := true.
Definition riY (N r : nat) : nat := 0.
Definition rtY (r : nat) : [eqType of nat] := r.
Definition rsY (t : [eqType of nat]) (r : nat) : [eqType of nat] := t.
Lemma randomY : random_ok rvY riY. Proof. by []. Qed.

(* Two attempts of an insertion with order limit 1: the first is accepted with ratio 1, the
   second one stopped by the limit; both are counted as rejected. *)
Lemma runY : exists s,
  [/\ do_ins_rem aniX GX UY xX 0%N jX 1 1 1 rvY rhY riY rtY (sub_new _ 2 0) 1 stats0 (iota 0 9) =
      Ok (1, s, (0, 2)%N, [::]), reachY s, ~~ su_trying s & su_v s = [:: (0, 0, 2, false, 1)]%N].
Proof.
rewrite /do_ins_rem.
have -> : draw_kinds rhY (2 * 1) (iota 0 9) = Ok ([:: true; true], iota 2 7) by [].
rewrite obOk.
have -> : gen_all UY riY rtY (count id ([:: true; true], iota 2 7).1) (size (su_v (sub_new (F := [numFieldType of rat]) [eqType of nat] 2 0))) ([:: true; true], iota 2 7).2
  = Ok ([:: (0, 0, 2, true, 0); (0, 0, 5, true, 0)], [:: (0, 1); (1, 1)], [:: 8])%N by [].
rewrite obOk.
have new0 := R_new aniX GX UY xX 2 0%N jX 0.
have [s1 e1 [i1 t1 v1 v01]] := init_ok tokY (new_ok (F := [numFieldType of rat]) aniX GX UY xX 2 0) (isT : ~~ su_trying (sub_new _ 2 0)) (isT : all (fun v => v_type v < size UY)%N [:: (0, 0, 2, true, 0); (0, 0, 5, true, 0)]%N).
have re1 : reachY s1 by apply: R_init e1.
have ev1 : su_v s1 = [:: (0, 0, 2, true, 1); (0, 0, 5, true, 2)]%N by rewrite v1.
rewrite e1 obOk.
have pos1 : 0 < (1 : [numFieldType of rat]) by [].
have h1 : (0 < size (su_v s1))%N by rewrite ev1.
have h2 : v_non (nth (vertex0 0%N) (su_v s1) 0) by rewrite ev1.
have h3 : v_non (nth (vertex0 0%N) (su_v0 s1) 0) by rewrite v01 ev1.
have h4 : (v_af (nth (vertex0 0%N) (su_v s1) 0) < vd_naf (sp_def UY (nth (vertex0 0%N) (su_v s1) 0)))%N by rewrite ev1.
have := C32_insertion 8%N [::] tokY randomY pos1 pos1 re1 t1 h1 h2 h3 h4; cbv zeta.
set vs' := sp_flip _ _ _.
have w0 : wY (su_v s1) = 1 by rewrite ev1 wt_ints; apply: wt_nil.
have evs : vs' = [:: (0, 0, 2, false, 1); (0, 0, 5, true, 2)]%N by rewrite /vs' ev1.
have w1 : wY vs' = 1 by rewrite evs wt_ints weightY.
have -> : (rvY 8 < sp_ins_rate GX UY xX 2 1 1 (su_v s1) vs').
  by rewrite /sp_ins_rate w0 w1 ev1.
case=> s2; rewrite w0 w1 => e2 [r2 t2 v2 v02].
have -> : ins_rem_loop aniX UY 0%N jX 1 1 rvY riY [:: true; true] [:: (0, 1); (1, 1)]%N 1 s1 1 stats0 [:: 8%N] = Ok (1, s2, (0, 2)%N, [::]).
  cbn [ins_rem_loop].
  have -> : (1 < num_interacting (su_v s1) + 1)%N = false by rewrite ev1.
  rewrite e2 obOk /= v2.
  have -> : (1 < num_interacting vs' + 1)%N by rewrite evs.
  by congr (Ok (_, _, _, _)); rewrite ?divr1 ?mulr1 // !eqxx.
rewrite obOk.
have := C31_finalize tokY r2; rewrite v2 evs.
have -> : all (fun v => v_non v ==> sp_covers UY 2 v) [:: (0, 0, 2, false, 1); (0, 0, 5, true, 2)]%N by [].
case=> s3 e3 v3; rewrite e3 /=; exists s3; split=> //.
- by apply: R_finalize r2 e3.
- by have [_ ->] := C27_close tokY r2 e3.
Qed.

(* An accepted insertion that leaves the weight as it is counts as rejected. *)
Theorem C36_accepted_uncounted_refuted :
  exists (s s2 : sub [numFieldType of rat] [eqType of nat]) (w : rat) (c2 : stats),
    [/\ reachY s /\ ~~ su_trying s,
        do_ins_rem aniX GX UY xX 0%N jX 1 1 1 rvY rhY riY rtY s 1 stats0 (iota 0 9) = Ok (w, s2, c2, [::]),
        sp_order (su_v s) = 0%N, sp_order (su_v s2) = 1%N & get_result [numFieldType of rat] c2 = Some (0, 1)].
Proof.
have [s2 [e re tr ev]] := runY.
exists (sub_new _ 2 0), s2, 1, (0, 2)%N; split.
- by split; [apply: R_new | ].
- exact: e.
- by [].
- by rewrite ev.
by rewrite /get_result /= mul0r divff.
Qed.
Print Assumptions C36_accepted_uncounted_refuted.

(* the hypotheses of C59_ins_rem_ratio and C36_counters_partial *)
Example C59_case : exists s,
  [/\ reachY (sub_new _ 2 0), random_ok rvY riY,
      forall t, (t < size UY)%N -> (0 < vd_naf (nth (vdef0 _) UY t))%N,
      forall v : vertex [eqType of nat], (v_type v < size UY)%N -> sp_covers UY 2 v &
      do_ins_rem aniX GX UY xX 0%N jX 1 1 1 rvY rhY riY rtY (sub_new _ 2 0) 1 stats0 (iota 0 9) = Ok (1, s, (0, 2)%N, [::])].
Proof.
have [s [e _ _ _]] := runY; exists s; split; last exact: e.
- exact: R_new.
- exact: randomY.
- by case.
by move=> [[[[[|t] a] tm] non] u] //= _; vm_compute.
Qed.

(* one sweep: the empty configuration becomes one vertex, the limit *)
Notation updY maps := (update aniX GX UY xX 0%N jX 1 1 1 rvY rhY riY rtY rsY 1 0 0 1 maps 2 0).
Example C33_case : exists y,
  [/\ iter_out (updY [::]) 1 (Sampler [:: sub_new (F := [numFieldType of rat]) [eqType of nat] 2 0] 0 stats0 stats0 0 (iota 0 9)) = Ok y,
      sp_order (su_v (sm_sub 2 0 y)) = 1%N & sm_cs y = stats0].
Proof.
have [s [e _ _ ev]] := runY.
have e2 := update_one rsY 2 0 stats0 e.
exists (Sampler [:: s] 0 (0, 2)%N stats0 1 [::]); split.
- by cbn [iter_out]; rewrite e2.
- by rewrite /sm_sub [nth _ _ _]/= ev.
by [].
Qed.

(* two vertex types *)
Definition U2 : seq (vdef [numFieldType of rat]) := UX ++ UX.
Lemma tok2 : sp_types_ok U2 aniX 2. Proof. by vm_compute. Qed.
Notation w2 := (weight (F := [numFieldType of rat]) (Tm := [eqType of nat]) GX U2 xX 2).
Lemma weight2 (ty u : nat) : (ty < 2)%N ->
  w2 [:: (ty, 0%N, 5%N, false, u)] = r_ 25 2.
Proof.
move=> h; rewrite /weight !big_ord_recl big_ord0 big_cons big_nil !mulr1.
case: ty h => [|[|]] // _; by rewrite !det_ofE /fdet [size _]/= !det_mx11 !mxE /sp_mat /= /GX; apply/eqP; vm_compute.
Qed.

(* The global update that exchanges the two types is accepted (its result, of type 1, is the
   object at the callee's pointer), and the sampler goes on with the old one, of type 0. *)
Theorem C34_lost_refuted :
  exists (s : sub [numFieldType of rat] [eqType of nat]) h p,
    [/\ reach (F := [numFieldType of rat]) aniX GX U2 xX 2 0%N jX s,
        global_updates aniX GX U2 xX rvY 2 [:: [:: 1; 0]]%N [:: s] 0 0 [:: 7%N] = Ok (h, p, [::]),
        [seq v_type v | v <- su_v s] = [:: 0%N],
        [seq v_type v | v <- su_v (nth s h p)] = [:: 1%N] &
        exists2 y, update aniX GX U2 xX 0%N jX 1 1 1 rvY rhY riY rtY rsY 0 0 0 1 [:: [:: 1; 0]]%N 2 0
            (Sampler [:: s] 0 stats0 stats0 0 [:: 7%N]) = Ok y &
          sm_sub 2 0 y = s].
Proof.
have ok ty u : (ty < 2)%N -> all (sp_vertex_ok (Tm := [eqType of nat]) U2) [:: (ty, 0, 5, false, u)]%N by case: ty => [|[|]].
have nz ty u : (ty < 2)%N -> w2 [:: (ty, 0%N, 5%N, false, u)] != 0 by move=> h; rewrite weight2.
have hm t : (t < size U2)%N -> [/\ (nth 0%N [:: 1; 0]%N t < size U2)%N,
     vd_rank (nth (vdef0 _) U2 (nth 0%N [:: 1; 0]%N t)) = vd_rank (nth (vdef0 _) U2 t) &
     vd_naf (nth (vdef0 _) U2 (nth 0%N [:: 1; 0]%N t)) = vd_naf (nth (vdef0 _) U2 t)] by case: t => [|[|]].
have em u : [seq (nth 0%N [:: 1; 0]%N (v_type v), v_af v, v_time v, v_non v, v_uid v) | v <- [:: (0, 0, 5, false, u)]%N] = [:: (1, 0, 5, false, u)]%N by [].
have lt : rvY 7 < `|r_ 25 2 / r_ 25 2| by rewrite divff // normr1.
have [s e [re tr sv sg]] := C58_construct 0%N jX 0 tok2 (ok 0 1 isT)%N (isT : all (fun v => ~~ v_non v) [:: (0, 0, 5, false, 1)]%N) (nz 0 1 isT)%N.
have [u ev] : exists u, su_v s = [:: (0, 0, 5, false, u)]%N.
  by move: sv; clear; rewrite /same_vertices; case: (su_v s) => [|[v u] [|]] //= [->]; exists u.
have [s' e' [re' tr' sv' _]] := C58_construct 0%N jX 0 tok2 (ok 1 u isT)%N (isT : all (fun v => ~~ v_non v) [:: (1, 0, 5, false, u)]%N) (nz 1 u isT)%N.
have eg : global_updates aniX GX U2 xX rvY 2 [:: [:: 1; 0]]%N [:: s] 0 0 [:: 7%N] = Ok ([:: s; s'], 1%N, [::]).
  have h := @C60_global_step _ _ aniX GX U2 xX 2 _ rvY _ [:: 1; 0]%N 7%N [::] tok2 (ok 0 u isT)%N isT erefl hm.
  cbv zeta in h; have w0 := weight2 u (isT : (0 < 2)%N); have w1 := weight2 u (isT : (1 < 2)%N).
  rewrite (em u) w0 w1 in h.
  rewrite lt -w0 in h; rewrite -ev in ok nz h; apply: (global_one _ h e').
  by apply: (C60_compute_weight GX xX tok2); rewrite ev; [apply: ok |].
exists s, [:: s; s'], 1%N; split; [exact: re | exact: eg | by rewrite ev | |].
  by rewrite [nth _ _ _]/=; move: sv'; clear; rewrite /same_vertices; case: (su_v s') => [|[v w] [|]] //= [->].
exists (Sampler [:: s; s'] 0 stats0 stats0 1 [::]); last by [].
exact: (update_global 0%N jX 1 1 1 rhY riY rtY rsY stats0 stats0 eg).
Qed.
Print Assumptions C34_lost_refuted.

(* the hypotheses of C32_insertion, C32_removal and C32_spin_flip: a session with one
   interacting vertex and one waiting *)
Example C32_case : exists s,
  [/\ reachY s, su_trying s, su_v s = [:: (0, 0, 2, false, 1); (0, 0, 5, true, (su_id s))]%N,
      su_v0 s = su_v s & sp_order (su_v s) = 1%N /\ random_ok rvY riY].
Proof.
have [s [_ re tr ev]] := runY.
have [s2 e [i2 t2 v2 v02]] := init_ok tokY (reach_inv tokY re) tr (isT : all (fun v => v_type v < size UY)%N [:: (0, 0, 5, true, 0)]%N).
have re2 : reachY s2 by apply: R_init e.
have id2 : su_id s2 = (su_id s).+1.
  by move: e; clear; rewrite /init_update; case: ifP => // _ [<-] /=; rewrite addn1.
exists s2; split; [exact: re2 | exact: t2 | | exact: v02 |].
  by rewrite v2 ev id2.
by split; [rewrite v2 ev | exact: randomY].
Qed.

(* the hypotheses of C32_balance and C32_spin_flip_balance *)
Example C32_balance_case :
  let vs : seq (vertex [eqType of nat]) := [:: (0, 0, 2, false, 1); (0, 0, 5, true, 2)]%N in
  [/\ v_non (nth (vertex0 0%N) vs 1), ~~ v_non (nth (vertex0 0%N) vs 0) & wY vs != 0].
Proof. by split=> //; rewrite wt_ints weightY. Qed.

Example C60_case : compute_weight (F := [numFieldType of rat]) GX UY xX 2 [:: (0, 0, 2, false, 1)]%N [:: 2%N] = Ok 1.
Proof.
rewrite -(weightY 2 1).
by rewrite -(C60_compute_weight GX xX tokY (vs := [:: (0, 0, 2, false, 1)]%N)).
Qed.
