(* The number of interacting vertices along the moves. *)
From mathcomp Require Import all_ssreflect ssralg ssrnum ssrint matrix zify.
From Verif Require Import Outcome MatLib SubModel SubSpec SubConf UMatModel UMatProofs ManModel.

Set Implicit Arguments.
Unset Strict Implicit.
Unset Printing Implicit Defensive.

Local Open Scope ring_scope.

Lemma obind_inv (A B : Type) (x : outcome A) (f : A -> outcome B) b :
  obind x f = Ok b -> exists2 a, x = Ok a & f a = Ok b.
Proof. by case: x => // a /= e; exists a. Qed.

Notation obI := (@obind_inv _ _ _ _ _).

Section Count.
Variables (F : numFieldType) (Tm : eqType) (ani : F).
Variable G0 : sop Tm -> sop Tm -> F.
Variable U : seq (vdef F).
Variables (x0 : sop Tm) (tm0 : Tm) (junk : fmat F).
Variables (beta : F) (kmax max_order : nat).
Variable R : Type.
Variable rval : R -> F.
Variable rhalf : R -> bool.
Variable ridx : nat -> R -> nat.
Variable rtime : R -> Tm.
Variable rshift : Tm -> R -> Tm.
Notation vtx := (vertex Tm).
Notation d0 := (vertex0 tm0).
Notation int_ := (fun v : vtx => ~~ v_non v).
Hypothesis rok : forall N r, (0 < N)%N -> (ridx N r < N)%N.

(* ---- what the operations of the submatrix update do to the vertices ---- *)

Lemma try_raw s req s1 r : try_spin_flip ani U s tm0 req = Ok (s1, r) ->
  su_v s1 = su_v s /\ su_trying s1 = su_trying s.
Proof.
rewrite /try_spin_flip; cbv zeta; case: ifP => // _.
move=> /obI[ls _]; cbv zeta => /obI[rs _ [<- _]].
by split.
Qed.
Lemma perform_raw s req s2 : perform_spin_flip junk tm0 s req = Ok s2 ->
  all (fun x => x.1 < size (su_v s))%N req /\ su_v s2 = flip_vertices tm0 (su_v s) req.
Proof.
rewrite /perform_spin_flip; cbv zeta; case: ifP => // /negbFE ok /obI[gs _ [<-]].
by split.
Qed.
Lemma reject_raw (s s2 : sub F Tm) : reject_spin_flip s = Ok s2 -> su_v s2 = su_v s.
Proof. by rewrite /reject_spin_flip; cbv zeta => /obI[gs _ [<-]]. Qed.
Lemma init_raw s new s2 : init_update ani G0 U x0 s new = Ok s2 ->
  su_v s2 = su_v s ++ number_vertices (su_id s) new.
Proof. by rewrite /init_update; case: ifP => // _ [<-]. Qed.
Lemma finalize_raw s s2 : finalize_update ani x0 s = Ok s2 -> su_v s2 = filter int_ (su_v s).
Proof.
rewrite /finalize_update; cbv zeta => /obI[A1 _]; cbv zeta => /obI[A2 _]; cbv zeta.
by case: ifP => // _ [<-].
Qed.
Lemma number_non_raw id (new : seq vtx) : all (fun v => v_non v) (number_vertices id new).
Proof. by rewrite /number_vertices all_map; apply/allP => -[v u]. Qed.
Lemma number_size id (new : seq vtx) : size (number_vertices id new) = size new.
Proof. by rewrite /number_vertices size_map size_zip size_iota minnn. Qed.

(* ---- counting ---- *)

Lemma count_set (vs : seq vtx) p x : (p < size vs)%N ->
  (count int_ (set_nth d0 vs p x) + int_ (nth d0 vs p) = count int_ vs + int_ x)%N.
Proof. by elim: vs p => [|v vs ih] [|p] //=; [lia | rewrite ltnS => /ih; lia]. Qed.
Lemma count_non (vs : seq vtx) : all (fun v => v_non v) vs -> count int_ vs = 0%N.
Proof. by elim: vs => //= v vs ih /andP[-> /ih ->]. Qed.
Lemma flip1 (vs : seq vtx) p st : flip_vertices tm0 vs [:: (p, st)] = set_nth d0 vs p (set_state (nth d0 vs p) st).
Proof. by []. Qed.
Lemma set_non (v : vtx) st : v_non (set_state v st) = (st == None). Proof. by case: st. Qed.

Lemma insertion_count s b n us rs w s2 rs2 :
  insertion_step ani U tm0 junk beta rval s b n us rs = Ok (w, s2, rs2) ->
  (count int_ (su_v s2) <= count int_ (su_v s) + n)%N.
Proof.
rewrite /insertion_step; case: eqP => [_ [_ <- _]|n0]; first by rewrite leq_addr.
case: ltnP => // n1; have -> : n = 1%N by lia.
move=> /obI[[s1 [[d f] u]] /try_raw [e1 _] /obI[x _]].
case: ifP => _ /obI[s3].
  move=> /perform_raw[]; rewrite /= addn0 e1 andbT => pl es [_ <- _]; rewrite es /flip_vertices /=.
  by have := count_set (set_state (nth d0 (su_v s) b) (Some (v_af (nth d0 (su_v s) b)))) pl; rewrite /=; lia.
by move=> /reject_raw e3 [_ <- _]; rewrite e3 e1 leq_addr.
Qed.

Lemma removal_count s us rs w s2 rs2 :
  removal_step ani U tm0 junk beta rval ridx s us rs = Ok (w, s2, rs2) ->
  (count int_ (su_v s2) <= count int_ (su_v s))%N.
Proof.
rewrite /removal_step => /obI[[[c pos] rs1] ep].
case: eqP => [_ [_ <- _] //|/eqP p0].
have e1p : pos = [:: head 0%N pos].
  move: ep p0; rewrite /pick_removed; case: ltnP => [l|l]; last by move=> [_ <- _]; lia.
  move=> /obI[x _]; case: ifP => // _ [_ <- _].
  by case: (swap0 _ _) => //= y l'; rewrite take0.
rewrite e1p => /obI[[s1 [[d f] u]] /try_raw [e1 _] /obI[x _]].
case: ifP => _ /obI[s3].
  move=> /perform_raw[]; rewrite /= e1 andbT => pl es [_ <- _]; rewrite es /flip_vertices /=.
  by have := count_set (set_state (nth d0 (su_v s) (head 0%N pos)) None) pl; rewrite /=; lia.
by move=> /reject_raw e3 [_ <- _]; rewrite e3 e1.
Qed.

Lemma ins_rem_count kinds ins us s w c rs w2 s2 c2 rs2 :
  ins_rem_loop ani U tm0 junk beta max_order rval ridx kinds ins us s w c rs = Ok (w2, s2, c2, rs2) ->
  (count int_ (su_v s) <= max_order)%N -> (count int_ (su_v s2) <= max_order)%N.
Proof.
elim: kinds ins s w c rs => [|k ks ih] ins s w c rs /=; first by move=> [_ <- _ _].
case: k.
  case: ins => // -[b n] ins; rewrite num_interactingE; case: ltnP => h.
    by apply: ih.
  move=> /obI[[[w1 s1] rs1] e1 e2] le; apply: ih e2 _.
  exact: leq_trans (insertion_count e1) h.
move=> /obI[[[w1 s1] rs1] e1 e2] le; apply: ih e2 _.
exact: leq_trans (removal_count e1) le.
Qed.

Definition idle_ok (s : sub F Tm) : Prop := all int_ (su_v s) /\ (size (su_v s) <= max_order)%N.

Lemma all_count (vs : seq vtx) : all int_ vs -> count int_ vs = size vs.
Proof. by move/all_filterP => {2}<-; rewrite size_filter. Qed.

Lemma do_ins_rem_count s us c rs w2 s2 c2 rs2 :
  do_ins_rem ani G0 U x0 tm0 junk beta kmax max_order rval rhalf ridx rtime s us c rs = Ok (w2, s2, c2, rs2) ->
  idle_ok s -> idle_ok s2.
Proof.
rewrite /do_ins_rem => /obI[[ks rs1] _ /obI[[[new pos] rs3] _ /obI[s1 /init_raw ei]]].
move=> /obI[[[[w3 s3] c3] rs4] el /obI[s4 /finalize_raw ef [_ <- _ _]]] [ai le].
split; first by rewrite ef filter_all.
rewrite ef size_filter; apply: ins_rem_count el _.
by rewrite ei count_cat (count_non (number_non_raw _ _)) addn0 (all_count ai).
Qed.

Lemma spin_step_all s p rs w s2 rs2 :
  spin_flip_step ani U tm0 junk rval ridx s p rs = Ok (w, s2, rs2) -> all int_ (su_v s) ->
  all int_ (su_v s2) /\ size (su_v s2) = size (su_v s).
Proof.
rewrite /spin_flip_step; case: leqP => // pl; case: leqP => // _; case: leqP => _; first by move=> [_ <- _].
move=> /obI[[sp rs1] _ /obI[[s1 [[d f] u]] /try_raw [e1 _] /obI[x _]]].
case: ifP => _ /obI[s3].
  move=> /perform_raw[_ es] [_ <- _] ai; rewrite es e1 /flip_vertices /= size_set_nth; split; last exact/maxn_idPr.
  apply/(all_nthP d0) => i; rewrite size_set_nth (maxn_idPr pl) nth_set_nth /= => il.
  by case: eqP => // _; apply: (allP ai); apply: mem_nth.
by move=> /reject_raw e3 [_ <- _]; rewrite e3 e1.
Qed.

Lemma spin_loop_all ps s w rs w2 s2 rs2 :
  spin_flip_loop ani U tm0 junk rval ridx ps s w rs = Ok (w2, s2, rs2) -> all int_ (su_v s) ->
  all int_ (su_v s2) /\ size (su_v s2) = size (su_v s).
Proof.
elim: ps s w rs => [|p ps ih] s w rs /=; first by move=> [_ <- _].
move=> /obI[[[w1 s1] rs1] e1 e2] ai; have [a1 z1] := spin_step_all e1 ai.
by have [a2 z2] := ih _ _ _ e2 a1; rewrite z2.
Qed.

Lemma do_spin_flip_size s rs w2 s2 rs2 :
  do_spin_flip ani G0 U x0 tm0 junk kmax rval ridx s rs = Ok (w2, s2, rs2) -> all int_ (su_v s) ->
  all int_ (su_v s2) /\ size (su_v s2) = size (su_v s).
Proof.
rewrite /do_spin_flip => /obI[ps _ /obI[s1 /init_raw ei /obI[[[w3 s3] rs3] el]]].
move=> /obI[s4 /finalize_raw ef [_ <- _]] ai.
have ai1 : all int_ (su_v s1) by rewrite ei cats0.
have [a3 z3] := spin_loop_all el ai1.
rewrite ef filter_all size_filter (all_count a3) z3; split=> //.
by rewrite ei cats0.
Qed.

(* ---- shifts ---- *)

Lemma pickup_ok N n rs ps rs2 : (n <= N)%N -> pickup ridx N n rs = Ok (ps, rs2) ->
  uniq ps /\ all (fun i => i < N)%N ps.
Proof.
rewrite /pickup => nN /obI[[l rest] e [<- _]].
case: (posnP N) => [N0|Np].
  have n0 : n = 0%N by move: nN; rewrite N0; case: (n).
  by move: e; rewrite n0 /pickup_a_few_numbers /= => -[<- _].
have dr : all (fun d => d < N)%N [seq ridx N r | r <- rs].
  by rewrite all_map; elim: rs {e} => //= r rs ->; rewrite rok.
by have [] := pickup_sound dr e.
Qed.

Lemma shift_loop_count ps q s w rs w2 s2 rs2 n :
  shift_loop ani U tm0 junk rval ps q s w rs = Ok (w2, s2, rs2) ->
  uniq ps -> all (fun p => p < n)%N ps -> (n <= q)%N ->
  (forall p, p \in ps -> (p < size (su_v s))%N && int_ (nth d0 (su_v s) p)) ->
  (forall p, (q <= p)%N -> (p < size (su_v s))%N -> v_non (nth d0 (su_v s) p)) ->
  count int_ (su_v s2) = count int_ (su_v s).
Proof.
elim: ps q s w rs => [|p ps ih] q s w rs /=; first by move=> [_ <- _].
move=> /obI[[s1 [[d f] u]] /try_raw [e1 _] /obI[x _]].
case: ifP => _ /obI[s3].
  move=> /perform_raw[]; rewrite /= e1 andbT => /andP[pl ql] es e3 /andP[pn up] /andP[pN aN] nq hi hn.
  have pq : (p == q) = false by apply/eqP; lia.
  have es' : su_v s3 = set_nth d0 (set_nth d0 (su_v s) p (set_state (nth d0 (su_v s) p) None)) q
       (set_state (nth d0 (su_v s) q) (Some (v_af (nth d0 (su_v s) p)))).
    by rewrite es /flip_vertices /= nth_set_nth /= eq_sym pq.
  have z1 : size (set_nth d0 (su_v s) p (set_state (nth d0 (su_v s) p) None)) = size (su_v s).
    by rewrite size_set_nth (maxn_idPr pl).
  have z3 : size (su_v s3) = size (su_v s) by rewrite es' size_set_nth z1; apply/maxn_idPr.
  rewrite (ih _ _ _ _ e3) //; first last.
  - move=> p' qp; rewrite z3 => p'l; rewrite es' nth_set_nth /=.
    case: eqP => [h|_]; first by move: qp; rewrite h ltnn.
    by rewrite nth_set_nth /=; case: eqP => [//|_]; apply: hn => //; apply: ltnW.
  - move=> p' p'i; have := hi p'; rewrite in_cons p'i orbT => /(_ isT) /andP[p'l p'int].
    rewrite z3 p'l es' nth_set_nth /=.
    have p'n := allP aN _ p'i.
    case: eqP => [h|_ ]; first by move: p'n; rewrite h ltnNge nq.
    rewrite nth_set_nth /=; case: eqP => [h|_ //]; by move: pn; rewrite -h p'i.
  - exact: leqW.
  have c1 := count_set (set_state (nth d0 (su_v s) p) None) pl.
  have ql' : (q < size (set_nth d0 (su_v s) p (set_state (nth d0 (su_v s) p) None)))%N by rewrite z1.
  have c2 := count_set (set_state (nth d0 (su_v s) q) (Some (v_af (nth d0 (su_v s) p)))) ql'.
  rewrite -es' in c2; move: c1 c2; rewrite !set_non /=.
  have /andP[_ ->] := hi p (mem_head _ _).
  rewrite nth_set_nth /= eq_sym pq (hn q (leqnn _) ql) /=.
  lia.
move=> /reject_raw er e3 /andP[pn up] /andP[pN aN] nq hi hn.
have ev : su_v s3 = su_v s by rewrite er e1.
rewrite (ih _ _ _ _ e3) ?ev //.
- exact: leqW.
- by move=> p' p'i; apply: hi; rewrite in_cons p'i orbT.
by move=> p' qp; apply: hn; apply: ltnW.
Qed.

Lemma do_shift_size s rs w2 s2 rs2 :
  do_shift ani G0 U x0 tm0 junk kmax rval ridx rshift s rs = Ok (w2, s2, rs2) -> all int_ (su_v s) ->
  all int_ (su_v s2) /\ size (su_v s2) = size (su_v s).
Proof.
rewrite /do_shift => /obI[[ps rs1] ep /obI[[cp rs3] _ /obI[s1 /init_raw ei]]].
move=> /obI[[[w3 s3] rs4] /= el /obI[s4 /finalize_raw ef [_ <- _]]] ai.
have [up aN] := pickup_ok (geq_minl _ _) ep.
rewrite ef filter_all; split=> //; rewrite size_filter.
rewrite (shift_loop_count el up aN (leqnn _)); first last.
- move=> p qp pl; rewrite ei nth_cat ltnNge qp /=.
  apply: (allP (number_non_raw (su_id s) cp)); apply: mem_nth.
  by rewrite -(ltn_add2l (size (su_v s))) subnKC // -size_cat -ei.
- move=> p pi; have pN := allP aN _ pi; rewrite ei nth_cat pN size_cat ltn_addr //=.
  by apply: (allP ai); apply: mem_nth.
by rewrite ei count_cat (count_non (number_non_raw _ _)) addn0 (all_count ai).
Qed.

(* ---- the sampling loop ---- *)

Variables (n_ins_rem n_shift n_spin_flip mperiod : nat) (maps : seq (seq nat)) (nf : nat) (jk : F).

Lemma iter_out_inv (A : Type) (f : A -> outcome A) (P : A -> Prop) n a b :
  (forall x y, P x -> f x = Ok y -> P y) -> P a -> iter_out f n a = Ok b -> P b.
Proof.
move=> h; elim: n a => [|n ih] a pa /=; first by move=> [<-].
by move=> /obI[c e1 e2]; apply: ih e2; apply: h e1.
Qed.

Notation sm_sub := (@ManModel.sm_sub F Tm R nf jk).
Notation sampler := (sampler F Tm R).

Lemma sm_put_sub (x : sampler) s c c' st rs : sm_sub (Sampler (sm_put nf jk x s) (sm_p x) c c' st rs) = s.
Proof. by rewrite /ManModel.sm_sub /= nth_set_nth /= eqxx. Qed.

Lemma mc_step_count x y :
  mc_step ani G0 U x0 tm0 junk beta kmax max_order rval rhalf ridx rtime rshift n_ins_rem n_shift n_spin_flip nf jk x = Ok y ->
  idle_ok (sm_sub x) -> idle_ok (sm_sub y).
Proof.
rewrite /mc_step => /obI[a ea /obI[b eb /obI[d ed [<-]]]] ok; rewrite sm_put_sub.
have oa : idle_ok a.1.1.
  apply: (iter_out_inv (P := fun z : sub F Tm * stats * seq R => idle_ok z.1.1) _ _ ea) => //.
  move=> z z2 oz /obI[[[[w s] c] rs] e [<-]] /=; exact: do_ins_rem_count e oz.
have ob : idle_ok b.1.
  apply: (iter_out_inv (P := fun z : sub F Tm * seq R => idle_ok z.1) _ _ eb) => //.
  move=> z z2 [oz lz] /obI[[[w s] rs] e [<-]] /=; have [h1 h2] := do_shift_size e oz.
  by split=> //; rewrite h2.
apply: (iter_out_inv (P := fun z : sub F Tm * seq R => idle_ok z.1) _ _ ed) => //.
move=> z z2 [oz lz] /obI[[[w s] rs] e [<-]] /=; have [h1 h2] := do_spin_flip_size e oz.
by split=> //; rewrite h2.
Qed.

Lemma recompute_raw s s2 : recompute_matrix ani G0 U x0 s = Ok s2 -> su_v s2 = su_v s.
Proof.
rewrite /recompute_matrix; case: ifP => // _ /obI[[[As sd] fs] _ [<-]] //.
Qed.

Lemma global_store h p rs g : (p < size h)%N ->
  global_updates ani G0 U x0 rval nf maps h p jk rs = Ok g ->
  nth (sub_new Tm nf jk) g.1.1 p = nth (sub_new Tm nf jk) h p /\ (p < size g.1.1)%N.
Proof.
move=> pl; rewrite /global_updates; case: ifP => _; first by move=> [<-].
move=> /obI[w _ /obI[x _ /obI[wk _ [<-]]]] /=.
by rewrite nth_rcons pl size_rcons ltnS ltnW.
Qed.

Lemma update_count x y :
  update ani G0 U x0 tm0 junk beta kmax max_order rval rhalf ridx rtime rshift n_ins_rem n_shift n_spin_flip mperiod maps nf jk x = Ok y ->
  idle_ok (sm_sub x) -> idle_ok (sm_sub y).
Proof.
rewrite /update => /obI[z ez /obI[s es /obI[g eg [<-]]]] ok.
have oz : idle_ok (sm_sub z).
  by apply: (iter_out_inv (P := fun z => idle_ok (sm_sub z)) _ ok ez) => u v ou ev; apply: mc_step_count ev ou.
have os : idle_ok s.
  move: es; case: ifP => _; last by move=> [<-].
  by move/recompute_raw => e; move: oz; rewrite /idle_ok e.
have pl : (sm_p z < size (sm_put nf jk z s))%N by rewrite size_set_nth leq_maxl.
have [e _] := global_store pl eg.
by rewrite /ManModel.sm_sub /= e nth_set_nth /= eqxx.
Qed.

Lemma update_shift_stats x y :
  update ani G0 U x0 tm0 junk beta kmax max_order rval rhalf ridx rtime rshift n_ins_rem n_shift n_spin_flip mperiod maps nf jk x = Ok y ->
  sm_cs y = sm_cs x.
Proof.
rewrite /update => /obI[z ez /obI[s es /obI[g eg [<-]]]] /=.
apply: (iter_out_inv (P := fun z => sm_cs z = sm_cs x) _ _ ez) => // u v eu.
by rewrite /mc_step => /obI[a ea /obI[b eb /obI[d ed [<-]]]].
Qed.

(* one global update *)
Lemma global_one s m w vs w' rs rs' s' :
  compute_weight G0 U x0 nf (su_v s) [seq vd_rank (sp_def U v) | v <- su_v s] = Ok w ->
  global_update_impl G0 U x0 rval nf (su_v s) [seq vd_rank (sp_def U v) | v <- su_v s] m w rs = Ok (vs, w', rs') ->
  sub_from ani G0 U x0 nf jk vs = Ok s' ->
  global_updates ani G0 U x0 rval nf [:: m] [:: s] 0 jk rs = Ok ([:: s; s'], 1%N, rs').
Proof.
rewrite /global_updates /=.
have -> : [seq vd_rank (get_vertex U (v_type v)) | v <- su_v s] = [seq vd_rank (sp_def U v) | v <- su_v s] by [].
by move=> -> /= -> /= ->.
Qed.
(* one sweep that consists of one session of insertions and removals *)
Lemma update_one s c cs rs w s2 c2 rs2 :
  do_ins_rem ani G0 U x0 tm0 junk beta kmax max_order rval rhalf ridx rtime s 1 c rs = Ok (w, s2, c2, rs2) ->
  update ani G0 U x0 tm0 junk beta kmax max_order rval rhalf ridx rtime rshift 1 0 0 1 [::] nf jk (Sampler [:: s] 0 c cs 0 rs)
  = Ok (Sampler [:: s2] 0 c2 cs 1 rs2).
Proof. by rewrite /update /mc_step /ManModel.sm_sub /= => -> /=. Qed.
(* a sweep without moves, followed by the global updates *)
Lemma update_global s c cs rs g :
  global_updates ani G0 U x0 rval nf maps [:: s] 0 jk rs = Ok g ->
  update ani G0 U x0 tm0 junk beta kmax max_order rval rhalf ridx rtime rshift 0 0 0 1 maps nf jk (Sampler [:: s] 0 c cs 0 rs)
  = Ok (Sampler g.1.1 0 c cs 1 g.2).
Proof. by rewrite /update /mc_step /ManModel.sm_sub /ManModel.sm_put /= => ->. Qed.

End Count.
