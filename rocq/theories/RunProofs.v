(* The times of the vertices along the moves, and the runs of the sampling loop. *)
From mathcomp Require Import all_ssreflect order ssralg ssrnum ssrint rat matrix zify.
From mathcomp.algebra_tactics Require Import ring.
From Verif Require Import Outcome MatLib MatSpec SubModel SubSpec SubConf SubProofs Prop_Sub UMatModel UMatProofs ManModel ManSpec ManCount ManProofs ManGlobal ManShift.

Set Implicit Arguments.
Unset Strict Implicit.
Unset Printing Implicit Defensive.

Local Open Scope ring_scope.
Import Order.TTheory GRing.Theory Num.Theory.

Section Run.
Variables (F : numFieldType) (Tm : eqType) (ani : F).
Variable G0 : sop Tm -> sop Tm -> F.
Variable U : seq (vdef F).
Variables (x0 : sop Tm) (nf : nat) (tm0 : Tm) (junk : fmat F).
Variables (beta : F) (kmax max_order : nat).
Variable R : Type.
Variable rval : R -> F.
Variable rhalf : R -> bool.
Variable ridx : nat -> R -> nat.
Variable rtime : R -> Tm.
Variable rshift : Tm -> R -> Tm.
Notation vtx := (vertex Tm).
Notation d0 := (vertex0 tm0).
Notation tms := (map (@v_time Tm)).

(* ---- times ---- *)

Lemma flip_tms (vs : seq vtx) req : all (fun x => x.1 < size vs)%N req -> tms (flip_vertices tm0 vs req) = tms vs.
Proof.
rewrite /flip_vertices; elim: req vs => //= -[p st] req ih vs /= /andP[pl al].
have z : size (set_nth d0 vs p (set_state (nth d0 vs p) st)) = size vs by rewrite size_set_nth (maxn_idPr pl).
rewrite ih ?z //; apply: (@eq_from_nth _ tm0); first by rewrite !size_map z.
move=> i; rewrite size_map z => il; rewrite !(nth_map d0) ?z // nth_set_nth /=.
by case: eqP => // ->; clear z; case: st.
Qed.

Lemma insertion_tms s b n us rs w s2 rs2 :
  insertion_step ani U tm0 junk beta rval s b n us rs = Ok (w, s2, rs2) -> tms (su_v s2) = tms (su_v s).
Proof.
rewrite /insertion_step; case: eqP => [_ [_ <- _] //|n0]; case: ltnP => // n1.
move=> /obI[[s1 [[d f] u]] /try_raw [e1 _] /obI[x _]]; case: ifP => _ /obI[s3].
  by move=> /perform_raw[h es] [_ <- _]; rewrite es (flip_tms h) e1.
by move=> /reject_raw e3 [_ <- _]; rewrite e3 e1.
Qed.
Lemma removal_tms s us rs w s2 rs2 :
  removal_step ani U tm0 junk beta rval ridx s us rs = Ok (w, s2, rs2) -> tms (su_v s2) = tms (su_v s).
Proof.
rewrite /removal_step => /obI[[[c pos] rs1] ep]; case: eqP => [_ [_ <- _] //|p0].
move=> /obI[[s1 [[d f] u]] /try_raw [e1 _] /obI[x _]]; case: ifP => _ /obI[s3].
  by move=> /perform_raw[h es] [_ <- _]; rewrite es (flip_tms h) e1.
by move=> /reject_raw e3 [_ <- _]; rewrite e3 e1.
Qed.
Lemma ins_rem_tms kinds ins us s w c rs w2 s2 c2 rs2 :
  ins_rem_loop ani U tm0 junk beta max_order rval ridx kinds ins us s w c rs = Ok (w2, s2, c2, rs2) ->
  tms (su_v s2) = tms (su_v s).
Proof.
elim: kinds ins s w c rs => [|k ks ih] ins s w c rs /=; first by move=> [_ <- _ _].
case: k.
  case: ins => // -[b n] ins; case: ifP => _; first exact: ih.
  by move=> /obI[[[w1 s1] rs1] e1 /ih ->]; exact: insertion_tms e1.
by move=> /obI[[[w1 s1] rs1] e1 /ih ->]; exact: removal_tms e1.
Qed.
Lemma spin_step_tms s p rs w s2 rs2 :
  spin_flip_step ani U tm0 junk rval ridx s p rs = Ok (w, s2, rs2) -> tms (su_v s2) = tms (su_v s).
Proof.
rewrite /spin_flip_step; case: leqP => // pl; case: leqP => // _; case: leqP => _; first by move=> [_ <- _].
move=> /obI[[sp rs1] _ /obI[[s1 [[d f] u]] /try_raw [e1 _] /obI[x _]]].
case: ifP => _ /obI[s3].
  by move=> /perform_raw[h es] [_ <- _]; rewrite es (flip_tms h) e1.
by move=> /reject_raw e3 [_ <- _]; rewrite e3 e1.
Qed.
Lemma spin_loop_tms ps s w rs w2 s2 rs2 :
  spin_flip_loop ani U tm0 junk rval ridx ps s w rs = Ok (w2, s2, rs2) -> tms (su_v s2) = tms (su_v s).
Proof.
elim: ps s w rs => [|p ps ih] s w rs /=; first by move=> [_ <- _].
by move=> /obI[[[w1 s1] rs1] e1 /ih ->]; exact: spin_step_tms e1.
Qed.
Lemma shift_loop_tms ps q s w rs w2 s2 rs2 :
  shift_loop ani U tm0 junk rval ps q s w rs = Ok (w2, s2, rs2) -> tms (su_v s2) = tms (su_v s).
Proof.
elim: ps q s w rs => [|p ps ih] q s w rs /=; first by move=> [_ <- _].
move=> /obI[[s1 [[d f] u]] /try_raw [e1 _] /obI[x _]].
case: ifP => _ /obI[s3].
  by move=> /perform_raw[h es] /ih ->; rewrite es (flip_tms h) e1.
by move=> /reject_raw e3 /ih ->; rewrite e3 e1.
Qed.

Variable P : pred Tm.
Hypothesis ptime : forall r, P (rtime r).
Hypothesis pshift : forall t r, P t -> P (rshift t r).
Definition timed (vs : seq vtx) : bool := all P (tms vs).

Lemma timed_filter (a : pred vtx) vs : timed vs -> timed (filter a vs).
Proof.
rewrite /timed !all_map => /allP h; apply/allP => v; rewrite mem_filter => /andP[_]; exact: h.
Qed.
Lemma timed_number id (new : seq vtx) : timed (number_vertices id new) = timed new.
Proof.
rewrite /timed /number_vertices; congr (all _ _).
elim: new id => //= v new ih id; rewrite /= -(ih id.+1).
by case: v => -[[[a b] c] e] u.
Qed.
Lemma gen_all_timed n b rs new pos rs2 : gen_all U ridx rtime n b rs = Ok (new, pos, rs2) -> timed new.
Proof.
elim: n b rs new pos rs2 => [|n ih] b rs new pos rs2 /=; first by move=> [<- _ _].
move=> /obI[[vs rs1] eg /obI[[[l ps] rs3] /ih tl [<- _ _]]].
rewrite /timed map_cat all_cat -/(timed l) tl andbT.
move: eg; rewrite /gen_vertices; case: ifP => _; first by move=> [<- _].
move=> /obI[x _ /obI[y _]]; case: ifP => // _ /obI[z _ [<- _]] /=.
by rewrite ptime.
Qed.
Lemma shift_copies_timed vs ps rs cp rs2 : timed vs -> all (fun p => p < size vs)%N ps ->
  shift_copies tm0 rshift vs ps rs = Ok (cp, rs2) -> timed cp.
Proof.
move=> tv; elim: ps rs cp rs2 => [|p ps ih] rs cp rs2 /=; first by move=> _ [<- _].
move=> /andP[pl al] /obI[x _ /obI[[l rs3] /ih tl [<- _]]].
rewrite /timed /= -/(timed l) tl // andbT; apply: pshift.
by apply: (allP tv); apply: map_f; apply: mem_nth.
Qed.

Hypothesis rok : forall N r, (0 < N)%N -> (ridx N r < N)%N.

Lemma do_ins_rem_timed s us c rs w2 s2 c2 rs2 :
  do_ins_rem ani G0 U x0 tm0 junk beta kmax max_order rval rhalf ridx rtime s us c rs = Ok (w2, s2, c2, rs2) ->
  timed (su_v s) -> timed (su_v s2).
Proof.
rewrite /do_ins_rem => /obI[[ks rs1] _ /obI[[[new pos] rs3] eg /obI[s1 /init_raw ei]]].
move=> /obI[[[[w3 s3] c3] rs4] el /obI[s4 /finalize_raw ef [_ <- _ _]]] tv.
rewrite ef; apply: timed_filter; rewrite /timed (ins_rem_tms el) ei map_cat all_cat -!/(timed _) tv timed_number.
exact: gen_all_timed eg.
Qed.
Lemma do_spin_flip_timed s rs w2 s2 rs2 :
  do_spin_flip ani G0 U x0 tm0 junk kmax rval ridx s rs = Ok (w2, s2, rs2) -> timed (su_v s) -> timed (su_v s2).
Proof.
rewrite /do_spin_flip => /obI[ps _ /obI[s1 /init_raw ei /obI[[[w3 s3] rs3] el]]].
move=> /obI[s4 /finalize_raw ef [_ <- _]] tv.
by rewrite ef; apply: timed_filter; rewrite /timed (spin_loop_tms el) ei cats0.
Qed.
Lemma do_shift_timed s rs w2 s2 rs2 :
  do_shift ani G0 U x0 tm0 junk kmax rval ridx rshift s rs = Ok (w2, s2, rs2) -> timed (su_v s) -> timed (su_v s2).
Proof.
rewrite /do_shift => /obI[[ps rs1] ep /obI[[cp rs3] ec /obI[s1 /init_raw ei]]].
move=> /obI[[[w3 s3] rs4] /= el /obI[s4 /finalize_raw ef [_ <- _]]] tv.
have [up aN] := pickup_ok rok (geq_minl _ _) ep.
rewrite ef; apply: timed_filter; rewrite /timed (shift_loop_tms el) ei map_cat all_cat -!/(timed _) tv timed_number.
exact: shift_copies_timed ec.
Qed.

(* ---- runs ---- *)

Hypothesis tok : sp_types_ok U ani nf.
Hypothesis rpos : forall r, 0 <= rval r.
Hypothesis bpos : 0 < beta.
Hypothesis afp : forall t, (t < size U)%N -> (0 < vd_naf (nth (vdef0 F) U t))%N.
Hypothesis cov : forall v : vtx, (v_type v < size U)%N -> sp_covers U nf v.
Notation reach := (reach ani G0 U x0 nf tm0 junk).
Notation wt := (weight G0 U x0 nf).
Variables (n_ins_rem n_shift n_spin_flip mperiod : nat) (maps : seq (seq nat)) (jk : F).

(* a map that takes every type to one with as many operators and states *)
Definition map_fits (m : seq nat) : Prop := size m = size U /\
  forall t, (t < size U)%N -> [/\ (nth 0%N m t < size U)%N,
    vd_rank (nth (vdef0 F) U (nth 0%N m t)) = vd_rank (nth (vdef0 F) U t) &
    vd_naf (nth (vdef0 F) U (nth 0%N m t)) = vd_naf (nth (vdef0 F) U t)].
Hypothesis fits : forall m, m \in maps -> map_fits m.

Definition idle (s : sub F Tm) : Prop := [/\ reach s, ~~ su_trying s & timed (su_v s)].

Lemma iter_run (A : Type) (f : A -> outcome A) (Q : A -> Prop) n a :
  (forall x, Q x -> f x = Diverge \/ exists2 y, f x = Ok y & Q y) -> Q a ->
  iter_out f n a = Diverge \/ exists2 y, iter_out f n a = Ok y & Q y.
Proof.
move=> h; elim: n a => [|n ih] a qa /=; first by right; exists a.
have [->|[b -> qb]] := h a qa; [by left | exact: ih].
Qed.

Notation sampler := (sampler F Tm R).
Notation mcs := (mc_step ani G0 U x0 tm0 junk beta kmax max_order rval rhalf ridx rtime rshift n_ins_rem n_shift n_spin_flip nf jk).
Notation upd := (update ani G0 U x0 tm0 junk beta kmax max_order rval rhalf ridx rtime rshift n_ins_rem n_shift n_spin_flip mperiod maps nf jk).
Notation sm_sub := (@ManModel.sm_sub F Tm R nf jk).

Lemma mc_step_run (x : sampler) : idle (sm_sub x) -> mcs x = Diverge \/ exists2 y, mcs x = Ok y & idle (sm_sub y).
Proof.
move=> ix; rewrite /mc_step; have us1 : 0 < (1 : F) by exact: ltr01.
set f1 := (fun y : sub F Tm * stats * seq R => _).
have [|->|[a -> ia]] := iter_run (f := f1) (Q := fun y => idle y.1.1) n_ins_rem (a := (sm_sub x, sm_c x, sm_rs x)) _ ix.
- move=> [[s c] rs] [/= re tr tv]; rewrite /f1 /=.
  have [->|[t [w [s2 [c2 [rs2 [e [h1 h2] h3 _ _]]]]]]] :=
    do_ins_rem_ok kmax max_order rhalf rtime tok rok rpos bpos us1 afp cov c rs re tr; first by left.
  by right; rewrite e; exists (s2, c2, rs2) => //; split=> //; exact: do_ins_rem_timed e tv.
- by left.
rewrite obOk; set f2 := (fun y : sub F Tm * seq R => _).
have [|->|[b -> ib]] := iter_run (f := f2) (Q := fun y => idle y.1) n_shift (a := (a.1.1, a.2)) _ ia.
- move=> [s rs] [/= re tr tv]; rewrite /f2 /=.
  have [->|[w [s2 [rs2 [e h1 h2 h3 _]]]]] := do_shift_ok kmax rshift tok rok rpos cov rs re tr; first by left.
  by right; rewrite e; exists (s2, rs2) => //; split=> //; exact: do_shift_timed e tv.
- by left.
rewrite obOk; set f3 := (fun y : sub F Tm * seq R => _).
have [|->|[d -> id]] := iter_run (f := f3) (Q := fun y => idle y.1) n_spin_flip (a := b) _ ib.
- move=> [s rs] [/= re tr tv]; rewrite /f3 /=.
  have [->|[w [s2 [rs2 [e h1 h2 h3 _]]]]] := do_spin_flip_ok kmax tok rok rpos rs re tr; first by left.
  by right; rewrite e; exists (s2, rs2) => //; split=> //; exact: do_spin_flip_timed e tv.
- by left.
by rewrite obOk; right; eexists; [reflexivity | rewrite sm_put_sub].
Qed.

(* configurations the global updates go through *)
Definition good (rk : seq nat) (vs : seq vtx) (w : F) : Prop :=
  [/\ all (sp_vertex_ok U) vs, all (fun v => ~~ v_non v) vs, rk = [seq vd_rank (sp_def U v) | v <- vs], w = wt vs & wt vs != 0].

Lemma good_cw rk vs w : good rk vs w -> compute_weight G0 U x0 nf vs rk = Ok (wt vs).
Proof.
case=> ok it -> _ _; apply: (cw_weight G0 x0 tok) => //.
elim: vs ok it => //= v vs ih /andP[ov /ih h] /andP[nv /h ->].
by move: ov; rewrite /sp_vertex_ok (negbTE nv) => ->.
Qed.

Lemma good_step rk vs w m rs : good rk vs w -> map_fits m ->
  global_update_impl G0 U x0 rval nf vs rk m w rs = Diverge \/
  exists vs2 w2 rs2, global_update_impl G0 U x0 rval nf vs rk m w rs = Ok (vs2, w2, rs2) /\ good rk vs2 w2.
Proof.
move=> gd [sm hm]; have [ok it er ew w0] := gd; rewrite /global_update_impl.
have ty : all (fun v => v_type v < size m)%N vs by rewrite sm; apply: sub_all ok => v /andP[].
rewrite ty /=; set vs' := map (transform m) vs.
have ok' : all (sp_vertex_ok U) vs'.
  rewrite all_map; apply: sub_all ok => v /andP[tv av] /=.
  have [h1 _ h3] := hm _ tv; move: av; rewrite /sp_vertex_ok /sp_def /v_non /v_type /v_af /= in h1 h3 *.
  by rewrite h1 h3.
have it' : all (fun v => ~~ v_non v) vs' by rewrite all_map; apply: sub_all it.
have er' : rk = [seq vd_rank (sp_def U v) | v <- vs'].
  rewrite er -map_comp; apply/eq_in_map => v vi /=.
  by have /andP[tv _] := allP ok _ vi; have [_ h _] := hm _ tv; rewrite /sp_def /v_type /= h.
have -> : compute_weight G0 U x0 nf vs' rk = Ok (wt vs').
  rewrite er'; apply: (cw_weight G0 x0 tok) => //.
  elim: vs' ok' it' {er'} => //= v l ih /andP[ov /ih h] /andP[nv /h ->].
  by move: ov; rewrite /sp_vertex_ok (negbTE nv) => ->.
rewrite obOk; case: rs => [|r rs]; first by left.
rewrite /= ew; case: ifP => lt; right; last by exists vs, (wt vs), rs; split=> //; split.
exists vs', (wt vs'), rs; split=> //; split=> //.
apply/eqP => z; move: lt; rewrite z mul0r normr0 => lt.
by have := le_lt_trans (rpos r) lt; rewrite ltxx.
Qed.

Lemma good_loop rk l vs w rs : good rk vs w -> (forall m, m \in l -> map_fits m) ->
  global_loop G0 U x0 rval nf l vs rk w rs = Diverge \/
  exists vs2 w2 rs2, global_loop G0 U x0 rval nf l vs rk w rs = Ok (vs2, w2, rs2) /\ good rk vs2 w2.
Proof.
elim: l vs w rs => [|m l ih] vs w rs gd hm /=; first by right; exists vs, w, rs.
have [->|[vs2 [w2 [rs2 [-> gd2]]]]] := good_step rs gd (hm _ (mem_head _ _)); first by left.
by rewrite obOk; apply: ih gd2 _ => m' mi; apply: hm; rewrite inE mi orbT.
Qed.

Lemma global_run h p rs : idle (nth (sub_new Tm nf jk) h p) ->
  global_updates ani G0 U x0 rval nf maps h p jk rs = Diverge \/
  exists g, global_updates ani G0 U x0 rval nf maps h p jk rs = Ok g.
Proof.
move=> [re tr _]; rewrite /global_updates; case: ifP => _; first by right; eexists.
set s := nth _ _ _ in re tr *; have hi := reach_inv tok re.
have gd : good [seq vd_rank (sp_def U v) | v <- su_v s] (su_v s) (wt (su_v s)).
  by split=> //; [exact: i_vo hi | exact: i_ready hi tr | exact: i_w hi].
have -> : [seq vd_rank (get_vertex U (v_type v)) | v <- su_v s] = [seq vd_rank (sp_def U v) | v <- su_v s] by [].
rewrite (good_cw gd) obOk.
have [->|[vs2 [w2 [rs2 [-> [k1 k2 _ _ k5]]]]]] := good_loop rs gd fits; first by left.
rewrite obOk; have [s' -> _] := from_ok tok jk k1 k2 k5.
by rewrite obOk; right; eexists.
Qed.

Lemma update_run (x : sampler) : idle (sm_sub x) -> upd x = Diverge \/ exists2 y, upd x = Ok y & idle (sm_sub y).
Proof.
move=> ix; rewrite /update.
have [->|[y -> iy]] := iter_run (Q := fun y => idle (sm_sub y)) mperiod mc_step_run ix; first by left.
rewrite obOk.
have [s -> is_] : exists2 s, (if (sm_step y %% (20 * mperiod) == 0)%N then recompute_matrix ani G0 U x0 (sm_sub y) else Ok (sm_sub y)) = Ok s & idle s.
  case: ifP => _; last by exists (sm_sub y).
  have [re tr tv] := iy; have [s2 e [h1 h2 h3 _ _]] := C58_recompute tok re tr.
  by exists s2 => //; split=> //; rewrite h3.
rewrite obOk.
have pl : (sm_p y < size (sm_put nf jk y s))%N by rewrite size_set_nth leq_maxl.
have en : nth (sub_new Tm nf jk) (sm_put nf jk y s) (sm_p y) = s by rewrite nth_set_nth /= eqxx.
have [|->|[g eg]] := @global_run (sm_put nf jk y s) (sm_p y) (sm_rs y); [by rewrite en | by left |].
rewrite eg obOk; right; eexists; first by reflexivity.
by have [e _] := global_store pl eg; rewrite /ManModel.sm_sub /= e en.
Qed.

Lemma run_ok n (x : sampler) : idle (sm_sub x) -> iter_out upd n x = Diverge \/ exists2 y, iter_out upd n x = Ok y & idle (sm_sub y).
Proof. exact: (iter_run (Q := fun y => idle (sm_sub y)) n update_run). Qed.
End Run.
