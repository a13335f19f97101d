(* A run can always be continued to its end: the moves use the random numbers in order, and
   with suitable further numbers every loop of the program ends. *)
From mathcomp Require Import all_ssreflect order ssralg ssrnum ssrint rat matrix zify.
From Verif Require Import Outcome MatLib SrcFormulaModel SubModel UMatModel ManModel.

Set Implicit Arguments.
Unset Strict Implicit.
Unset Printing Implicit Defensive.

Local Open Scope ring_scope.

(* not a model: a result that was reached *)
Definition ends (A : Type) (x : outcome A) : Prop := x <> Diverge.

Lemma ends_bind (A B : Type) (x : outcome A) (f : A -> outcome B) :
  ends x -> (forall a, ends (f a)) -> ends (obind x f).
Proof. by case: x => [a| | |] //= _; apply. Qed.
Lemma ends_oseq (A B : Type) (f : B -> outcome A) (l : seq B) : (forall b, ends (f b)) -> ends (oseq [seq f b | b <- l]).
Proof. by move=> h; elim: l => //= b l ih; apply: ends_bind => // a; apply: ends_bind. Qed.

Section Ends.
Variables (F : numFieldType) (Tm : eqType) (ani : F).
Variable G0 : sop Tm -> sop Tm -> F.
Variable U : seq (vdef F).
Variables (x0 : sop Tm) (tm0 : Tm) (junk : fmat F).

Lemma try_ends s req : ends (try_spin_flip ani U s tm0 req).
Proof.
rewrite /try_spin_flip; cbv zeta; case: ifP => // _; apply: ends_bind => [|ls].
  apply: ends_oseq => x; rewrite /flip_elems; apply: ends_oseq => r; by case: find_row.
cbv zeta; apply: ends_bind => [|rs] //; apply: ends_oseq => fl.
rewrite /try_flavor; case: eqP => _; case: eqP => _; case: eqP => _ //.
  by rewrite /gm_try_remove; cbv zeta; apply: ends_bind => // ; apply: ends_oseq => o; rewrite /find_gamma; cbv zeta; case: ifP.
rewrite /gm_try_add_remove; cbv zeta; apply: ends_bind => [|l]; last by case: ifP.
by apply: ends_oseq => o; rewrite /find_gamma; cbv zeta; case: ifP.
Qed.
Lemma perform_ends (s : sub F Tm) req : ends (perform_spin_flip junk tm0 s req).
Proof.
rewrite /perform_spin_flip; cbv zeta; case: ifP => // _; apply: ends_bind => // ; apply: ends_oseq => fl.
rewrite /perform_flavor; case: eqP => _; case: eqP => _; case: eqP => _ //.
- by rewrite /gm_perform_add; case: ifP => // _; apply: ends_bind => //; rewrite /src_inverse_up2; case: ifP => // _; case: ifP.
- rewrite /gm_perform_remove; cbv zeta; apply: ends_bind => [|[[[a b] c] d]] //.
  by rewrite /src_inverse_down; do 3! (case: ifP => // _); cbv zeta; case: ifP.
rewrite /gm_perform_add_remove; cbv zeta; apply: ends_bind => //.
by rewrite /src_inverse_replace_rows_cols; case: ifP => // _; case: (gm_work _) => // -[a b]; case: ifP.
Qed.
Lemma reject_ends (s : sub F Tm) : ends (reject_spin_flip s).
Proof.
rewrite /reject_spin_flip; cbv zeta; apply: ends_bind => // ; apply: ends_oseq => fl.
by rewrite /reject_flavor; case: eqP => _; case: eqP => _; case: eqP.
Qed.
Lemma init_ends s new : ends (init_update ani G0 U x0 s new).
Proof. by rewrite /init_update; cbv zeta; case: ifP. Qed.
Lemma finalize_ends s : ends (finalize_update ani x0 s).
Proof.
rewrite /finalize_update; cbv zeta; apply: ends_bind => [|A1].
  apply: ends_oseq => fl; rewrite /ia_update; cbv zeta; do 2! (case: ifP => // _).
cbv zeta; apply: ends_bind => [|A2]; last by cbv zeta; case: ifP.
apply: ends_oseq => m; rewrite /ia_remove; apply: ends_bind => [|ls].
  by apply: ends_oseq => u; rewrite /find_rows; cbv zeta; case: ifP.
by cbv zeta; case: ifP => // _; rewrite /ia_remove_at; cbv zeta; case: ifP.
Qed.
Lemma flavors_ends As : ends (recompute_flavors ani G0 x0 As).
Proof.
rewrite /recompute_flavors; apply: ends_bind => //; apply: ends_oseq => m.
by rewrite /ia_recompute; cbv zeta; do 2! (case: ifP => // _).
Qed.
Lemma recompute_ends s : ends (recompute_matrix ani G0 U x0 s).
Proof.
rewrite /recompute_matrix; case: ifP => // _; apply: ends_bind => [|[[a b] c]] //; exact: flavors_ends.
Qed.
Lemma from_ends nf jk vs : ends (sub_from ani G0 U x0 nf jk vs).
Proof.
rewrite /sub_from; do 3! (case: ifP => // _); cbv zeta; apply: ends_bind => [|[[a b] c]] //; exact: flavors_ends.
Qed.
Lemma cw_ends nf vs rk : ends (compute_weight G0 U x0 nf vs rk).
Proof. by rewrite /compute_weight; case: ifP => // _; cbv zeta; case: ifP. Qed.
End Ends.

Section Live.
Variable R : Type.

(* not a model: unused numbers are passed on, and more numbers always help *)
Definition live (A : Type) (f : seq R -> outcome (A * seq R)) : Prop :=
  (forall rs e a rest, f rs = Ok (a, rest) -> f (rs ++ e) = Ok (a, rest ++ e)) /\
  (forall rs, exists e, f (rs ++ e) <> Diverge).

Lemma live_bind (A B : Type) (f : seq R -> outcome (A * seq R)) (h : A * seq R -> outcome (B * seq R)) :
  live f -> (forall a, live (fun rs => h (a, rs))) -> live (fun rs => obind (f rs) h).
Proof.
move=> [m1 l1] lh; split=> [rs e b rest|rs].
  case ef : (f rs) => [[a r1]| | |] //= eh; rewrite (m1 _ e _ _ ef) /=.
  by have [m2 _] := lh a; exact: m2 eh.
have [e] := l1 rs; case ef : (f (rs ++ e)) => [[a r1]| | |] // _; [|by exists e; rewrite ef..].
have [m2 l2] := lh a; have [e2 h2] := l2 r1.
by exists (e ++ e2); rewrite catA (m1 _ e2 _ _ ef).
Qed.
Lemma live_bindk (A B : Type) (k : outcome A) (g : A -> seq R -> outcome (B * seq R)) :
  ends k -> (forall a, live (g a)) -> live (fun rs => obind k (fun a => g a rs)).
Proof. by case: k => //= _ _; split=> // rs; exists [::]. Qed.
Lemma live_if (A : Type) (b : bool) (f g : seq R -> outcome (A * seq R)) :
  live f -> live g -> live (fun rs => if b then f rs else g rs).
Proof. by case: b. Qed.
Lemma live_ret (A : Type) (a : A) : live (fun rs => Ok (a, rs)).
Proof. by split=> [rs e a' rest [<- <-]|rs] //; exists [::]. Qed.
Lemma live_ub (A : Type) : live (fun rs => UB : outcome (A * seq R)).
Proof. by split=> // rs; exists [::]. Qed.
Lemma live_throw (A : Type) : live (fun rs => Throw : outcome (A * seq R)).
Proof. by split=> // rs; exists [::]. Qed.

(* a random number exists *)
Variable r0 : R.
Lemma live_draw : live (@draw R).
Proof. by split=> [[|r rs] e a rest //= [<- <-]|rs] //; exists [:: r0]; case: rs. Qed.

Variables (F : numFieldType) (Tm : eqType) (ani : F).
Variable G0 : sop Tm -> sop Tm -> F.
Variable U : seq (vdef F).
Variables (x0 : sop Tm) (tm0 : Tm) (junk : fmat F).
Variables (beta : F) (kmax max_order : nat).
Variable rval : R -> F.
Variable rhalf : R -> bool.
Variable ridx : nat -> R -> nat.
Variable rtime : R -> Tm.
Variable rshift : Tm -> R -> Tm.
(* every index is the index of some random number *)
Hypothesis onto : forall N i, (i < N)%N -> exists r, ridx N r = i.

Lemma live_kinds n : live (draw_kinds rhalf n).
Proof.
elim: n => [|n ih] /=; first exact: live_ret.
apply: live_bind => [|r] /=; first exact: live_draw.
apply: live_bind => [|ks] /=; [exact: ih | exact: live_ret].
Qed.
Lemma live_gen : live (gen_vertices U ridx rtime).
Proof.
rewrite /gen_vertices; apply: live_if; first exact: live_ret.
apply: live_bind => [|r] /=; first exact: live_draw.
apply: live_bind => [|r2] /=; first exact: live_draw.
apply: live_if; first exact: live_ub.
apply: live_bind => [|r3] /=; [exact: live_draw | exact: live_ret].
Qed.
Lemma live_gen_all n b : live (gen_all U ridx rtime n b).
Proof.
elim: n b => [|n ih] b /=; first exact: live_ret.
apply: live_bind => [|vs] /=; first exact: live_gen.
apply: live_bind => [|[l ps]] /=; [exact: ih | exact: live_ret].
Qed.

(* the last part of a step: accept or reject *)
Lemma live_accept (p w : F) (s1 : sub F Tm) req :
  live (fun rs => obind (draw rs) (fun x =>
    if rval x.1 < p then obind (perform_spin_flip junk tm0 s1 req) (fun s2 => Ok (w, s2, x.2))
    else obind (reject_spin_flip s1) (fun s2 => Ok (1, s2, x.2)))).
Proof.
apply: live_bind => [|r] /=; first exact: live_draw.
apply: live_if; apply: live_bindk => [|s2]; try exact: live_ret; [exact: perform_ends | exact: reject_ends].
Qed.
Lemma live_insertion s b n us : live (fun rs => insertion_step ani U tm0 junk beta rval s b n us rs).
Proof.
rewrite /insertion_step; apply: live_if; first exact: live_ret.
apply: live_if; first exact: live_throw.
cbv zeta; apply: live_bindk => [|[s1 [[d f] u]]]; [exact: try_ends | exact: live_accept].
Qed.
Lemma live_pick vs : live (fun rs => pick_removed U tm0 beta ridx vs rs).
Proof.
rewrite /pick_removed; cbv zeta; apply: live_if; last exact: live_ret.
apply: live_bind => [|r] /=; first exact: live_draw.
by apply: live_if; [exact: live_ub | exact: live_ret].
Qed.
Lemma live_removal s us : live (fun rs => removal_step ani U tm0 junk beta rval ridx s us rs).
Proof.
rewrite /removal_step; apply: live_bind => [|[c pos]] /=; first exact: live_pick.
apply: live_if; first exact: live_ret.
apply: live_bindk => [|[s1 [[d f] u]]]; [exact: try_ends | exact: live_accept].
Qed.
Lemma live_ins_rem kinds ins us s w c :
  live (fun rs => ins_rem_loop ani U tm0 junk beta max_order rval ridx kinds ins us s w c rs).
Proof.
elim: kinds ins s w c => [|k ks ih] ins s w c /=; first exact: live_ret.
case: k.
  case: ins => [|[b n] ins]; first exact: live_ub.
  apply: live_if; first exact: ih.
  apply: live_bind => [|[w1 s1]] /=; [exact: live_insertion | exact: ih].
apply: live_bind => [|[w1 s1]] /=; [exact: live_removal | exact: ih].
Qed.
Lemma live_do_ins_rem s us c : live (do_ins_rem ani G0 U x0 tm0 junk beta kmax max_order rval rhalf ridx rtime s us c).
Proof.
rewrite /do_ins_rem; apply: live_bind => [|ks] /=; first exact: live_kinds.
apply: live_bind => [|[new pos]] /=; first exact: live_gen_all.
apply: live_bindk => [|s1]; first exact: init_ends.
apply: live_bind => [|[[w s2] c2]] /=; first exact: live_ins_rem.
apply: live_bindk => [|s3]; [exact: finalize_ends | exact: live_ret].
Qed.

(* numbers chosen by rejection *)
(* util.h:64-72 — the rejection loop of pickup_a_few_numbers, written on the random numbers
   themselves; shown equal to the model's [pickup] below. *)
Fixpoint freeR N (flag : seq bool) (rs : seq R) : outcome (nat * seq R) :=
  if rs is r :: rs' then
    if (size flag <= ridx N r)%N then UB
    else if nth false flag (ridx N r) then freeR N flag rs' else Ok (ridx N r, rs')
  else Diverge.
(* util.h:61-79 — pickup_a_few_numbers on the random numbers themselves. *)
Fixpoint pickR N (flag : seq bool) (l : seq nat) (n : nat) (rs : seq R) : outcome (seq nat * seq R) :=
  if n is n'.+1 then
    obind (freeR N flag rs) (fun x => pickR N (set_nth false flag x.1 true) (rcons l x.1) n' x.2)
  else Ok (l, rs).
Lemma freeR_ok N flag rs d rest : freeR N flag rs = Ok (d, rest) -> (d < size flag)%N /\ nth true flag d = false.
Proof.
elim: rs => //= r rs ih; case: (leqP (size flag) (ridx N r)) => // dl; case: ifP => fr; first exact: ih.
by move=> [<- _]; split=> //; rewrite (set_nth_default false).
Qed.
Lemma freeR_eq N flag rs :
  match freeR N flag rs with
  | Ok (d, rest) => draw_free flag [seq ridx N r | r <- rs] = Ok (d, [seq ridx N r | r <- rest]) /\ exists p, rs = p ++ rest
  | UB => draw_free flag [seq ridx N r | r <- rs] = UB
  | Throw => draw_free flag [seq ridx N r | r <- rs] = Throw
  | Diverge => draw_free flag [seq ridx N r | r <- rs] = Diverge
  end.
Proof.
elim: rs => //= r rs; case: leqP => // dl; case: ifP => fr; last by split=> //; exists [:: r].
by case: (freeR N flag rs) => [[d rest]| | |] // [-> [p ->]]; split=> //; exists (r :: p).
Qed.
Lemma pickR_eq N flag l n rs :
  match pickR N flag l n rs with
  | Ok (a, rest) => pickup_loop flag l n [seq ridx N r | r <- rs] = Ok (a, [seq ridx N r | r <- rest]) /\ exists p, rs = p ++ rest
  | UB => pickup_loop flag l n [seq ridx N r | r <- rs] = UB
  | Throw => pickup_loop flag l n [seq ridx N r | r <- rs] = Throw
  | Diverge => pickup_loop flag l n [seq ridx N r | r <- rs] = Diverge
  end.
Proof.
elim: n flag l rs => [|n ih] flag l rs /=; first by split=> //; exists [::].
have := freeR_eq N flag rs; case: (freeR N flag rs) => [[d r1]| | |] /=; [|by move=> ->..].
move=> [-> [p ->]] /=; have := ih (set_nth false flag d true) (rcons l d) r1.
by case: (pickR _ _ _ _ _) => [[a rest]| | |] // [-> [q ->]]; split=> //; exists (p ++ q); rewrite catA.
Qed.
Lemma pickup_R N n rs : pickup ridx N n rs = pickR N (nseq N false) [::] n rs.
Proof.
rewrite /pickup /pickup_a_few_numbers.
have := pickR_eq N (nseq N false) [::] n rs; case: (pickR _ _ _ _ _) => [[a rest]| | |]; [|by move=> ->..].
by move=> [-> [p ->]] /=; rewrite size_map size_cat addnK drop_size_cat.
Qed.
Lemma live_freeR N (flag : seq bool) : size flag = N -> false \in flag -> live (freeR N flag).
Proof.
move=> sz fi; split.
  by elim=> //= r rs ih e a rest; case: leqP => // dl; case: ifP => _; [exact: ih | move=> [<- <-]].
have il : (index false flag < N)%N by rewrite -sz index_mem.
have [r er] := onto il.
elim=> [|r1 rs [e ih]] /=.
  by exists [:: r]; rewrite /= er sz leqNgt il /= nth_index.
by exists e; case: leqP => // dl; case: ifP.
Qed.
Lemma live_ext A (f g : seq R -> outcome (A * seq R)) : (forall rs, f rs = g rs) -> live g -> live f.
Proof.
move=> h [m l]; split=> [rs e a rest|rs]; first by rewrite !h; exact: m.
by have [e he] := l rs; exists e; rewrite h.
Qed.
Lemma live_bind_ok A B (f : seq R -> outcome (A * seq R)) (g : A -> seq R -> outcome (B * seq R)) :
  live f -> (forall a rs rest, f rs = Ok (a, rest) -> live (g a)) ->
  live (fun rs => obind (f rs) (fun x => g x.1 x.2)).
Proof.
move=> [mf lf] lg; split=> [rs e b rest|rs].
  case ef : (f rs) => [[a r1]| | |] //= eg.
  by rewrite (mf _ e _ _ ef) /=; apply: (proj1 (lg _ _ _ ef)).
have [e1] := lf rs; case ef : (f (rs ++ e1)) => [[a r1]| | |] // _; [|by exists e1; rewrite ef..].
have [e2 h2] := proj2 (lg _ _ _ ef) r1.
by exists (e1 ++ e2); rewrite catA (mf _ e2 _ _ ef).
Qed.
Lemma live_pickR N n (flag : seq bool) l : size flag = N -> (n <= count (pred1 false) flag)%N -> live (pickR N flag l n).
Proof.
elim: n flag l => [|n ih] flag l sz cn; first exact: live_ret.
have fi : false \in flag by rewrite -has_pred1 has_count (leq_trans _ cn).
apply: (@live_bind_ok _ _ (freeR N flag) (fun d rs => pickR N (set_nth false flag d true) (rcons l d) n rs)); first exact: live_freeR.
move=> d rs rest /freeR_ok [dl nd]; apply: ih.
- by rewrite size_set_nth -sz; apply/maxn_idPr.
- have : (count (pred1 false) (set_nth false flag d true)).+1 = count (pred1 false) flag.
    by elim: flag d dl nd {sz cn fi} => [|b flag ih2] [|d] //= dl; [move=> -> | move/(ih2 _ dl) => <-; rewrite addnS].
  by move: cn; clear; lia.
Qed.
Lemma live_pickup N n : (n <= N)%N -> live (pickup ridx N n).
Proof.
move=> le; apply: (live_ext (pickup_R N n)); apply: live_pickR; first by rewrite size_nseq.
by rewrite count_nseq mul1n.
Qed.
Lemma live_draw_spin naf old : (1 < naf)%N -> live (draw_spin ridx naf old).
Proof.
move=> n1; split.
  by elim=> //= r rs ih e a rest; case: ifP => _; [exact: ih | move=> [<- <-]].
have [i il ne] : exists2 i, (i < naf)%N & i != old.
  by case: (eqVneq old 0%N) => [->|ne]; [exists 1%N | exists 0%N; rewrite 1?eq_sym // (ltn_trans _ n1)].
have [r er] := onto il.
elim=> [|r1 rs [e ih]] /=; first by exists [:: r]; rewrite /= er (negbTE ne).
by exists e; case: ifP.
Qed.
Lemma live_spin_step s pos : live (spin_flip_step ani U tm0 junk rval ridx s pos).
Proof.
rewrite /spin_flip_step; cbv zeta; apply: live_if; first exact: live_ub.
apply: live_if; first exact: live_ub.
case: leqP => n1; first exact: live_ret.
apply: live_bind => [|y] /=; first exact: live_draw_spin.
apply: live_bindk => [|[s1 [[d f] u]]]; first exact: try_ends.
apply: live_bind => [|x] /=; first exact: live_draw.
apply: live_if.
- by apply: live_bindk => [|s2]; [exact: perform_ends | exact: live_ret].
- by apply: live_bindk => [|s2]; [exact: reject_ends | exact: live_ret].
Qed.
Lemma live_spin_loop ps s w : live (spin_flip_loop ani U tm0 junk rval ridx ps s w).
Proof.
elim: ps s w => [|p ps ih] s w /=; first exact: live_ret.
by apply: live_bind => [|[w1 s1]] /=; [exact: live_spin_step | exact: ih].
Qed.
Lemma live_do_spin s : live (do_spin_flip ani G0 U x0 tm0 junk kmax rval ridx s).
Proof.
rewrite /do_spin_flip; cbv zeta; apply: live_bind => [|ps] /=; first by apply: live_pickup; exact: geq_minr.
apply: live_bind => [|[w s2]] /=; first exact: live_spin_loop.
by apply: live_bindk => [|s3]; [exact: finalize_ends | exact: live_ret].
Qed.
Lemma live_copies vs ps : live (shift_copies tm0 rshift vs ps).
Proof.
elim: ps => [|p ps ih] /=; first exact: live_ret.
apply: live_bind => [|x] /=; first exact: live_draw.
by apply: live_bind => [|y] /=; [exact: ih | exact: live_ret].
Qed.
Lemma live_shift_loop ps q s w : live (shift_loop ani U tm0 junk rval ps q s w).
Proof.
elim: ps q s w => [|p ps ih] q s w /=; first exact: live_ret.
apply: live_bindk => [|[s1 [[d f] u]]]; first exact: try_ends.
apply: live_bind => [|x] /=; first exact: live_draw.
apply: live_if.
- by apply: live_bindk => [|s2]; [exact: perform_ends | exact: ih].
- by apply: live_bindk => [|s2]; [exact: reject_ends | exact: ih].
Qed.
Lemma live_do_shift s : live (do_shift ani G0 U x0 tm0 junk kmax rval ridx rshift s).
Proof.
rewrite /do_shift; cbv zeta; apply: live_bind => [|ps] /=; first by apply: live_pickup; exact: geq_minl.
apply: live_bind => [|cp] /=; first exact: live_copies.
apply: live_bindk => [|s1]; first exact: init_ends.
apply: live_bind => [|[w s2]] /=; first exact: live_shift_loop.
by apply: live_bindk => [|s3]; [exact: finalize_ends | exact: live_ret].
Qed.
Lemma live_global_impl nf vs rk m w : live (global_update_impl G0 U x0 rval nf vs rk m w).
Proof.
rewrite /global_update_impl; cbv zeta; apply: live_if; first exact: live_ub.
apply: live_bindk => [|wn]; first exact: cw_ends.
apply: live_bind => [|x] /=; first exact: live_draw.
by apply: live_if; exact: live_ret.
Qed.
Lemma live_global_loop nf maps vs rk w : live (global_loop G0 U x0 rval nf maps vs rk w).
Proof.
elim: maps vs w => [|m maps ih] vs w /=; first exact: live_ret.
by apply: live_bind => [|[v1 w1]] /=; [exact: live_global_impl | exact: ih].
Qed.
Lemma live_globals nf maps h p jk : live (global_updates ani G0 U x0 rval nf maps h p jk).
Proof.
rewrite /global_updates; cbv zeta; apply: live_if; first exact: live_ret.
apply: live_bindk => [|w]; first exact: cw_ends.
apply: live_bind => [|[v1 w1]] /=; first exact: live_global_loop.
by apply: live_bindk => [|s]; [exact: from_ends | exact: live_ret].
Qed.

(* the loops over the state and the random numbers *)
Lemma live_iter A (f : A * seq R -> outcome (A * seq R)) n a :
  (forall a, live (fun rs => f (a, rs))) -> live (fun rs => iter_out f n (a, rs)).
Proof.
move=> lf; elim: n a => [|n ih] a /=; first exact: live_ret.
by apply: live_bind => [|a1]; [exact: lf | exact: ih].
Qed.

Notation sampler := (sampler F Tm R).
(* not a model: the same state with more random numbers to come *)
Definition more (x : sampler) (e : seq R) : sampler :=
  Sampler (sm_h x) (sm_p x) (sm_c x) (sm_cs x) (sm_step x) (sm_rs x ++ e).
(* not a model: [live] for functions on the state of the sampling *)
Definition liveS (f : sampler -> outcome sampler) : Prop :=
  (forall x e y, f x = Ok y -> f (more x e) = Ok (more y e)) /\ (forall x, exists e, f (more x e) <> Diverge).
Lemma more_nil x : more x [::] = x.
Proof. by case: x => h p c cs st rs; rewrite /more cats0. Qed.
Lemma more_cat x e1 e2 : more x (e1 ++ e2) = more (more x e1) e2.
Proof. by rewrite /more /= catA. Qed.
Lemma liveS_bind f g : liveS f -> liveS g -> liveS (fun x => obind (f x) g).
Proof.
move=> [mf lf] [mg lg]; split=> [x e y|x].
  by case ef : (f x) => [x1| | |] //= eg; rewrite (mf _ e _ ef) /=; exact: mg.
have [e1] := lf x; case ef : (f (more x e1)) => [x1| | |] // _; [|by exists e1; rewrite ef..].
have [e2 h2] := lg x1; exists (e1 ++ e2); by rewrite more_cat (mf _ e2 _ ef).
Qed.
Lemma liveS_iter f n : liveS f -> liveS (iter_out f n).
Proof.
move=> lf; elim: n => [|n ih]; last exact: (liveS_bind lf ih).
by split=> [x e y [->]|x] //; exists [::].
Qed.
Lemma liveS_of A (g : sampler -> seq R -> outcome (A * seq R)) (k : sampler -> A * seq R -> sampler) f :
  (forall x, f x = obind (g x (sm_rs x)) (fun a => Ok (k x a))) ->
  (forall x e, g (more x e) = g x) -> (forall x e e' a rs, k (more x e) (a, rs ++ e') = more (k x (a, rs)) e') ->
  (forall x, live (g x)) -> liveS f.
Proof.
move=> ef eg ek lg; split=> [x e y|x].
  rewrite !ef eg; case e1 : (g x (sm_rs x)) => [[a r1]| | |] //= [<-].
  by have [m _] := lg x; rewrite (m _ e _ _ e1) /= ek.
have [_ l] := lg x; have [e he] := l (sm_rs x); exists e; rewrite ef eg /=.
by case: (g x _) he.
Qed.

Variables (n_ins_rem n_shift n_spin_flip mperiod : nat) (maps : seq (seq nat)) (nf : nat) (jk : F).
Lemma liveS_step : liveS (mc_step ani G0 U x0 tm0 junk beta kmax max_order rval rhalf ridx rtime rshift n_ins_rem n_shift n_spin_flip nf jk).
Proof.
pose g (x : sampler) rs := 
  obind (iter_out (fun y : sub F Tm * stats * seq R =>
           obind (do_ins_rem ani G0 U x0 tm0 junk beta kmax max_order rval rhalf ridx rtime y.1.1 1 y.1.2 y.2) (fun r => Ok (r.1.1.2, r.1.2, r.2))) n_ins_rem
         (sm_sub nf jk x, sm_c x, rs)) (fun a =>
  obind (iter_out (fun y : sub F Tm * seq R => obind (do_shift ani G0 U x0 tm0 junk kmax rval ridx rshift y.1 y.2) (fun r => Ok (r.1.2, r.2))) n_shift
         (a.1.1, a.2)) (fun b =>
  obind (iter_out (fun y : sub F Tm * seq R => obind (do_spin_flip ani G0 U x0 tm0 junk kmax rval ridx y.1 y.2) (fun r => Ok (r.1.2, r.2))) n_spin_flip
         b) (fun d => Ok (d.1, a.1.2, d.2)))).
pose k (x : sampler) (a : sub F Tm * stats * seq R) : sampler :=
  Sampler (sm_put nf jk x a.1.1) (sm_p x) a.1.2 (sm_cs x) (sm_step x).+1 a.2.
apply: (@liveS_of _ g k) => [x|x e|x e e' a rs|x].
- rewrite /mc_step /g; case: (iter_out _ n_ins_rem _) => [a| | |] //=.
  by case: (iter_out _ n_shift _) => [b| | |] //=; case: (iter_out _ n_spin_flip _) => [d| | |].
- by [].
- by [].
rewrite /g; apply: live_bind => [|[s c]] /=.
  apply: live_iter => -[s c] /=; apply: live_bind => [|[[w s1] c1]] /=; [exact: live_do_ins_rem | exact: live_ret].
apply: live_bind => [|s1] /=.
  by apply: live_iter => s1 /=; apply: live_bind => [|[w s2]] /=; [exact: live_do_shift | exact: live_ret].
apply: live_bind => [|s2] /=; last exact: live_ret.
by apply: live_iter => s2 /=; apply: live_bind => [|[w s3]] /=; [exact: live_do_spin | exact: live_ret].
Qed.
Lemma liveS_update : liveS (update ani G0 U x0 tm0 junk beta kmax max_order rval rhalf ridx rtime rshift n_ins_rem n_shift n_spin_flip mperiod maps nf jk).
Proof.
apply: liveS_bind; first exact/liveS_iter/liveS_step.
pose g (y : sampler) rs :=
  obind (if (sm_step y %% (20 * mperiod) == 0)%N then recompute_matrix ani G0 U x0 (sm_sub nf jk y) else Ok (sm_sub nf jk y)) (fun s =>
  global_updates ani G0 U x0 rval nf maps (sm_put nf jk y s) (sm_p y) jk rs).
pose k (y : sampler) (g : store F Tm * nat * seq R) : sampler :=
  Sampler g.1.1 (sm_p y) (sm_c y) (sm_cs y) (sm_step y) g.2.
apply: (@liveS_of _ g k) => [x|x e|x e e' a rs|x] //.
- by rewrite /g; case: (if _ then _ else _).
rewrite /g; apply: live_bindk => [|s]; last exact: live_globals.
by case: ifP => // _; exact: recompute_ends.
Qed.
Lemma live_run n x : exists e, iter_out (update ani G0 U x0 tm0 junk beta kmax max_order rval rhalf ridx rtime rshift n_ins_rem n_shift n_spin_flip mperiod maps nf jk) n (more x e) <> Diverge.
Proof. by have [_ l] := liveS_iter n liveS_update; exact: l. Qed.
End Live.
