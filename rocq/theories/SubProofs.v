(* The invariant of the submatrix update object and its preservation. *)
From mathcomp Require Import all_ssreflect ssralg ssrnum ssrint matrix ring zify.
From Verif Require Import Outcome MatLib MatSpec BlockLib FormulaProofs SrcFormulaModel SrcFormulaProofs
  SubModel SubSpec SubMath SubRows SubFlavor SubConf SubStep SubFinal.

Set Implicit Arguments.
Unset Strict Implicit.
Unset Printing Implicit Defensive.

Import GRing.Theory Num.Theory.
Local Open Scope ring_scope.

Lemma oseq_ex (A B : Type) (d : A) (b0 : B) (h : A -> outcome B) (Q : A -> B -> Prop) (l : seq A) :
  (forall i, (i < size l)%N -> exists2 y, h (nth d l i) = Ok y & Q (nth d l i) y) ->
  exists2 ys, oseq (map h l) = Ok ys & size ys = size l /\
    forall i, (i < size l)%N -> Q (nth d l i) (nth b0 ys i).
Proof.
elim: l => [|x l IH] H; first by exists [::].
have [y e q] := H 0%N isT.
have [ys e' [sz q']] := IH (fun i il => H i.+1 il).
exists (y :: ys); first by rewrite /= [h x]e /= e'.
by split; [rewrite /= sz | case].
Qed.

Lemma oseq_inv (A B : Type) (d : A) (b0 : B) (h : A -> outcome B) (l : seq A) ys :
  oseq (map h l) = Ok ys -> size ys = size l /\
  forall i, (i < size l)%N -> h (nth d l i) = Ok (nth b0 ys i).
Proof.
elim: l ys => [|x l IH] ys /=; first by move=> [<-].
case E : (h x) => [y|||] //=; case E' : (oseq _) => [zs|||] //= [<-].
by have [sz H] := IH _ E'; split; [rewrite /= sz | case].
Qed.

Lemma oseq_iotaI (B : Type) (b0 : B) (h : nat -> outcome B) ys n :
  oseq [seq h i | i <- iota 0 n] = Ok ys -> forall i, (i < n)%N -> h i = Ok (nth b0 ys i).
Proof.
suff g l zs : oseq [seq h i | i <- l] = Ok zs ->
    forall i, (i < size l)%N -> h (nth 0%N l i) = Ok (nth b0 zs i).
  by move=> e i il; have := g _ _ e i; rewrite size_iota nth_iota //; apply.
elim: l zs => [//|x l IH] zs /=.
case hx : (h x) => [y| | |] //=; case hl : (oseq _) => [ys2| | |] //= [<-] [|i] //= il.
exact: IH.
Qed.

Lemma oseq_iota (B : Type) (b0 : B) (h : nat -> outcome B) (Q : nat -> B -> Prop) n :
  (forall i, (i < n)%N -> exists2 y, h i = Ok y & Q i y) ->
  exists2 ys, oseq [seq h i | i <- iota 0 n] = Ok ys & size ys = n /\
    forall i, (i < n)%N -> Q i (nth b0 ys i).
Proof.
move=> H; have [|ys e [sz q]] := @oseq_ex _ _ 0%N b0 h Q (iota 0 n).
  by move=> i; rewrite size_iota => il; rewrite nth_iota //; apply: H.
rewrite size_iota in sz q; exists ys => //; split=> // i il.
by have := q i il; rewrite nth_iota.
Qed.

Section Proofs.
Variables (F : numFieldType) (Tm : eqType) (ani : F).
Variable G0 : sop Tm -> sop Tm -> F.
Variable U : seq (vdef F).
Variable x0 : sop Tm.
Variable nf : nat.
Hypothesis tok : sp_types_ok U ani nf.
Variable tm0 : Tm.
Variable junk : fmat F.
Notation row := (arow F Tm).
Notation vtx := (vertex Tm).
Notation rdet := (rdet ani G0 x0).
Notation vrows := (vrows ani U).
Notation alp := (alp ani U).
Notation rank_of := (rank_of U).
Notation wt := (weight G0 U x0 nf).
Notation Dall := (Dall ani G0 U x0 nf).
Notation static := (static ani G0 x0).
Notation has_tG := (has_tG G0 x0).
Notation gam_ok := (gam_ok ani x0).
Let d0 : vtx := vertex0 tm0.
Let A0 : inva F Tm := inva_new F Tm.
Let g0 : gmat F := gmat_new F.
Implicit Types (s : sub F Tm).

Definition Afl s fl := nth A0 (su_A s) fl.
Definition Gfl s fl := nth g0 (su_G s) fl.
Definition ini s := if su_trying s then su_v0 s else su_v s.

Record flav s fl : Prop := Flav {
  fv_st : static (Afl s fl);
  fv_ga : gam_ok (Afl s fl) (Gfl s fl);
  fv_p0 : perm_eq (ia_rows (Afl s fl)) (vrows fl (ini s));
  fv_p : perm_eq (crows x0 (ia_rows (Afl s fl)) (gm_info (Gfl s fl))) (vrows fl (su_v s));
  fv_tG : su_trying s -> has_tG (Afl s fl);
  fv_ready : ~~ su_trying s -> gm_info (Gfl s fl) = [::] }.

Record inv s : Prop := Inv {
  i_sA : size (su_A s) = nf;
  i_sG : size (su_G s) = nf;
  i_key : map (@vkey Tm) (ini s) = map (@vkey Tm) (su_v s);
  i_uid : uniq [seq v_uid v | v <- su_v s];
  i_id : all (fun v => v_uid v <= su_id s)%N (su_v s);
  i_vo : all (sp_vertex_ok U) (su_v s);
  i_vo0 : all (sp_vertex_ok U) (ini s);
  i_fl : forall fl, (fl < nf)%N -> flav s fl;
  i_w : wt (su_v s) != 0;
  i_sign : su_sign s = mysign (wt (su_v s));
  i_sdet : su_sdet s = mysign (Dall (su_v s));
  i_ready : ~~ su_trying s -> all (fun v => ~~ v_non v) (su_v s) }.

Lemma mysignM (x y : F) : mysign (x * y) = mysign x * mysign y.
Proof. by rewrite /mysign normrM invfM mulrACA. Qed.
Lemma mysignV (x : F) : mysign x^-1 = (mysign x)^-1.
Proof. by rewrite /mysign normfV invfM. Qed.
Lemma mysign1 : mysign (1 : F) = 1. Proof. by rewrite /mysign normr1 divr1. Qed.

(* ---- the weight ---- *)

Lemma wt_Dall vs : all (sp_vertex_ok U) vs ->
  wt vs = Dall vs / \prod_(v <- vs) hf ani U v * \prod_(v <- vs) hU U v.
Proof.
move=> ok; rewrite weightE (DallE _ _ tok ok) mulfK //.
by apply: prod_ne0 => v vi; apply: (hf_ne0 tok); apply: (allP ok).
Qed.

Lemma wt_rdet vs fl : all (sp_vertex_ok U) vs -> wt vs != 0 -> (fl < nf)%N -> rdet (vrows fl vs) != 0.
Proof.
move=> ok; rewrite wt_Dall // => nz fll; apply/eqP => z; move: nz.
by rewrite /SubConf.Dall (bigD1 (Ordinal fll)) //= z !mul0r eqxx.
Qed.

Lemma Dall_ne0 vs : all (sp_vertex_ok U) vs -> wt vs != 0 -> Dall vs != 0.
Proof. by move=> ok; rewrite wt_Dall // => nz; apply/eqP => z; move: nz; rewrite z !mul0r eqxx. Qed.

Lemma step_ratio vs req d f u : all (sp_vertex_ok U) vs -> valid_req U d0 vs req ->
  Dall (sp_flip d0 vs req) = d * Dall vs ->
  f = \prod_(x <- req) (hf ani U (sp_set (nth d0 vs x.1) x.2) / hf ani U (nth d0 vs x.1)) ->
  u = \prod_(x <- req) (hU U (sp_set (nth d0 vs x.1) x.2) / hU U (nth d0 vs x.1)) ->
  d * (1 / f) * u * wt vs = wt (sp_flip d0 vs req).
Proof.
move=> ok val eD ef eu.
have okf := flip_ok_all ok val.
have rm x : x \in req -> (x.1 < size vs)%N /\ st_ok U (nth d0 vs x.1) x.2.
  by move=> xi; case/andP: val => _ /allP /(_ _ xi) /andP [].
have so x : x \in req -> sp_vertex_ok U (sp_set (nth d0 vs x.1) x.2).
  move=> xi; have [xl xs] := rm _ xi; apply: sp_set_ok => //.
  by have := allP ok _ (mem_nth d0 xl) => /andP [].
have no x : x \in req -> sp_vertex_ok U (nth d0 vs x.1).
  by move=> xi; have [xl xs] := rm _ xi; apply: (allP ok); apply: mem_nth.
rewrite !wt_Dall // eD.
rewrite (prod_flip val (h := hf ani U)); first last.
- by move=> x xi; apply: (hf_ne0 tok); apply: so.
- by move=> v vi; apply: (hf_ne0 tok); apply: (allP ok).
rewrite (prod_flip val (h := hU U)); first last.
- by move=> x xi; apply: (hU_ne0 tok); apply: so.
- by move=> v vi; apply: (hU_ne0 tok); apply: (allP ok).
rewrite -ef -eu.
have fz : f != 0.
  rewrite ef prodf_seq_neq0; apply/allP => x xi /=; rewrite mulf_neq0 ?invr_eq0 //; apply: (hf_ne0 tok); [exact: so|exact: no].
have hz : \prod_(v <- vs) hf ani U v != 0.
  by apply: prod_ne0 => v vi; apply: (hf_ne0 tok); apply: (allP ok).
move: (Dall vs) (\prod_(_ <- _) _) (\prod_(_ <- _) _) hz => a b c hz.
by field; rewrite fz hz.
Qed.

(* ---- try_spin_flip ---- *)

Section Try.
Variables (s : sub F Tm) (req : request).
Hypotheses (hi : inv s) (tr : su_trying s) (val : valid_req U d0 (su_v s) req).
Let vs := su_v s.
Let vs0 := su_v0 s.
Definition rsf fl := ia_rows (Afl s fl).
Definition inff fl := gm_info (Gfl s fl).
Definition ops fl : seq (opu F) := opsl ani U tm0 vs0 vs (rsf fl) fl req.

Lemma t_ini : ini s = vs0. Proof. by rewrite /ini tr. Qed.
Lemma t_key : map (@vkey Tm) vs0 = map (@vkey Tm) vs. Proof. by have := i_key hi; rewrite t_ini. Qed.
Lemma t_vo0 : all (sp_vertex_ok U) vs0. Proof. by have := i_vo0 hi; rewrite t_ini. Qed.
Lemma t_p0 fl : (fl < nf)%N -> perm_eq (rsf fl) (vrows fl vs0).
Proof. by move=> h; have := fv_p0 (i_fl hi h); rewrite t_ini. Qed.
Lemma t_p fl : (fl < nf)%N -> perm_eq (crows x0 (rsf fl) (inff fl)) (vrows fl vs).
Proof. by move=> h; apply: (fv_p (i_fl hi h)). Qed.

Lemma t_ops fl : (fl < nf)%N -> ops_ok ani x0 (rsf fl) (inff fl) (ops fl).
Proof.
by move=> h; apply: (opsl_ok tok t_key (i_uid hi) (i_vo hi) (t_p0 h) (t_p h) val).
Qed.

Lemma find_rowE (m : inva F Tm) uid r : (uid, r) \in [seq uidkey x | x <- ia_rows m] ->
  find_row m uid r = Some (index (uid, r) [seq uidkey x | x <- ia_rows m]).
Proof.
move=> h; rewrite /find_row.
have -> : find (fun r1 => (ar_uid r1 == uid) && (ar_rank r1 == r)) (ia_rows m) = index (uid, r) [seq uidkey x | x <- ia_rows m].
  by rewrite /index find_map; apply: eq_find => x.
by rewrite -(size_map (@uidkey F Tm)) index_mem h.
Qed.

Let elems (x : nat * option nat) : seq (nat * opu F) :=
  [seq (sp_flavor U (nth d0 vs x.1) r, opx ani U tm0 vs0 vs (rsf (sp_flavor U (nth d0 vs x.1) r)) x r)
  | r <- iota 0 (rank_of (nth d0 vs x.1))].

Lemma t_elems x : x \in req -> flip_elems ani U s tm0 x.1 x.2 = Ok (elems x).
Proof.
move=> xi; rewrite /flip_elems.
apply: (@oseq_ok _ _ (fun r => r < rank_of (nth d0 vs x.1))%N); last first.
  by apply/allP => r; rewrite mem_iota add0n => /andP [].
move=> r rl.
have vi := req_mem val xi.
have tv := req_type (i_vo hi) val xi.
have fl := flavor_lt tok tv rl.
have km := key_mem (t_p fl) vi rl (erefl _).
by rewrite (find_rowE km).
Qed.

Lemma t_oseq : oseq [seq flip_elems ani U s tm0 x.1 x.2 | x <- req] = Ok [seq elems x | x <- req].
Proof.
apply: (@oseq_ok _ _ (mem req)); last by apply/allP.
by move=> x xi; apply: t_elems.
Qed.

Lemma t_pick (P : pred (opu F)) fl : (fl < nf)%N ->
  nth [::] (pick nf P (flatten [seq elems x | x <- req])) fl = [seq o <- ops fl | P o].
Proof.
move=> fll; rewrite /pick (nth_map 0%N) ?size_iota // nth_iota // add0n /ops /opsl.
elim: req => [//|x l IH] /=; rewrite !filter_cat map_cat IH; congr (_ ++ _).
rewrite /elems /opsx !filter_map -map_comp.
set e1 := [seq r <- _ | _]; set e2 := [seq r <- _ | _].
have -> : e1 = e2.
  rewrite /e1 /e2 -filter_predI; apply: eq_filter => r /=; case: eqP => [->|]; rewrite ?andbT ?andbF //.
rewrite /e2; apply/eq_in_map => r; rewrite !mem_filter /= => /and3P [_ /eqP -> _].
by [].
Qed.

Lemma t_flip_ok : all (flip_ok U (su_v s) tm0) req.
Proof. by case/andP: val. Qed.

Lemma t_flip_v0 : all (fun x => x.1 < size (su_v0 s))%N req.
Proof.
have e : size vs0 = size vs by have := congr1 size t_key; rewrite !size_map.
by apply/allP => x xi; rewrite -/vs0 e; apply: (req_lt val xi).
Qed.

Lemma t_frat : foldl (fun a x => f_step ani a x.2) 1 (flatten [seq elems x | x <- req]) =
  \prod_(x <- req) (hf ani U (sp_set (nth d0 vs x.1) x.2) / hf ani U (nth d0 vs x.1)).
Proof.
have e (a : F) (o : opu F) : f_step ani a o = a * (if op_ac o == op_an o then 1 else gfac ani (op_an o) / gfac ani (op_ac o)).
  rewrite /f_step; case: (op_ac o =P op_an o) => [_|_] /=; first by rewrite mulr1.
  rewrite /gfac; case: (op_an o =P ani) => _ /=; case: (op_ac o =P ani) => _ /=; rewrite ?div1r ?divr1 ?mulr1 // mulrA //.
have e2 l (a : F) : foldl (fun a (x : nat * opu F) => f_step ani a x.2) a l =
   a * \prod_(x <- l) (if op_ac x.2 == op_an x.2 then 1 else gfac ani (op_an x.2) / gfac ani (op_ac x.2)).
  by elim: l a => [|x l IH] a /=; rewrite ?big_nil ?mulr1 // big_cons e IH mulrA.
rewrite e2 mul1r big_flatten /= big_map big_seq [RHS]big_seq; apply: eq_bigr => x xi.
have vi := req_mem val xi; have tv := req_type (i_vo hi) val xi.
have sv : st_ok U (nth d0 vs x.1) (v_state (nth d0 vs x.1)).
  by have := allP (i_vo hi) _ vi; rewrite vertex_okE => /andP [].
rewrite /elems big_map /hf /SubConf.rank_of sp_set_def -prodf_div.
rewrite big_seq [RHS]big_seq; apply: eq_bigr => r; rewrite mem_iota add0n => /andP [_ rl] /=.
rewrite /SubConf.alp sp_set_def sp_set_state -/(alp (nth d0 vs x.1) x.2 r) -/(alp (nth d0 vs x.1) (v_state (nth d0 vs x.1)) r).
rewrite -!/(alp _ _ _).
case: eqP => // ->; rewrite divff //; apply: gfac_ne0; apply: (alp_good tok) => //.
exact: (req_st val xi).
Qed.

Lemma t_urat : foldl (U_step U (su_v s) tm0) 1 req =
  \prod_(x <- req) (hU U (sp_set (nth d0 vs x.1) x.2) / hU U (nth d0 vs x.1)).
Proof.
have h0 : all (fun x => v_type (nth d0 vs x.1) < size U)%N req.
  by apply/allP => x xi; apply: (req_type (i_vo hi) val xi).
suff h l (a : F) : all (fun x => v_type (nth d0 vs x.1) < size U)%N l -> foldl (U_step U (su_v s) tm0) a l =
  a * \prod_(x <- l) (hU U (sp_set (nth d0 vs x.1) x.2) / hU U (nth d0 vs x.1)) by rewrite h // mul1r.
elim: l a => [|x l IH] a /=; first by rewrite big_nil mulr1.
case/andP => tv al; rewrite IH // big_cons mulrA; congr (_ * _).
rewrite /U_step /hU sp_set_def -/d0 -/vs.
have uz : - vd_U (sp_def U (nth d0 vs x.1)) != 0 by rewrite oppr_eq0 (U_ne0 tok).
by case: (v_non _) => /=; case: (x.2) => [b|] /=; rewrite ?divr1 ?divff ?mulr1 ?div1r.
Qed.

(* what holds for every request the program accepts to try *)
Record mtried s1 d f u : Prop := MTried {
  md_A : su_A s1 = su_A s; md_v : su_v s1 = su_v s; md_v0 : su_v0 s1 = su_v0 s;
  md_t : su_trying s1 = su_trying s; md_sd : su_sdet s1 = su_sdet s; md_sg : su_sign s1 = su_sign s;
  md_id : su_id s1 = su_id s;
  md_norep : forall fl, (fl < nf)%N -> [seq o <- ops fl | goes_rep o] = [::];
  md_w : (forall fl, (fl < nf)%N ->
      rdet (crows x0 (rsf fl) [seq x <- inff fl | gi_pos x \notin [seq op_pos o | o <- ops fl & goes_rem o]]) != 0) ->
    d * f * u * wt vs = wt (sp_flip d0 vs req);
  md_sG : size (su_G s1) = nf;
  md_rej : forall fl, (fl < nf)%N ->
    exists2 g3, reject_flavor (Gfl s1 fl) (nth [::] (su_rem s1) fl) (nth [::] (su_ins s1) fl) (nth [::] (su_rep s1) fl)
      = Ok g3 & perm_gam (Gfl s fl) g3 }.

Lemma try_mixed s1 d f u : try_spin_flip ani U s tm0 req = Ok (s1, (d, f, u)) -> mtried s1 d f u.
Proof.
rewrite /try_spin_flip t_flip_ok t_flip_v0 /= t_oseq /= i_sA //.
set l := flatten _; set rem := pick _ (@goes_rem F) _; set ins := pick _ (@goes_ins F) _; set rep := pick _ (@goes_rep F) _.
case e : (oseq _) => [rs| | |] //= [<- <- <- <-].
have ei := oseq_iotaI (g0, 0) e.
have norep fl : (fl < nf)%N -> [seq o <- ops fl | goes_rep o] = [::].
  move=> fll; have := ei fl fll; rewrite /try_flavor [nth [::] rep fl]t_pick //.
  by case: (size _ == _)%N; case: (size _ == _)%N; case: eqP => // /size0nil.
have sz : size rs = nf.
  have [|ys e' [sz' _]] := @oseq_iota _ (g0, 0) (fun fl => try_flavor ani (nth (inva_new F Tm) (su_A s) fl) (nth (gmat_new F) (su_G s) fl)
      (nth [::] rem fl) (nth [::] ins fl) (nth [::] rep fl)) (fun _ _ => True) nf.
    by move=> fl fll; eexists; [exact: ei|].
  by move: e'; rewrite e => -[->].
have q fl : (fl < nf)%N ->
  (rdet (crows x0 (rsf fl) [seq x <- inff fl | gi_pos x \notin [seq op_pos o | o <- ops fl & goes_rem o]]) != 0 ->
   rdet (target x0 (rsf fl) (inff fl) (ops fl)) = (nth (g0, 0) rs fl).2 * rdet (crows x0 (rsf fl) (inff fl))) /\
  exists2 g3, reject_flavor (nth (g0, 0) rs fl).1 (nth [::] rem fl) (nth [::] ins fl) (nth [::] rep fl) = Ok g3 & perm_gam (Gfl s fl) g3.
  move=> fll; have hfl := i_fl hi fll.
  have [g' [r [e1 e2 e3]]] := mix_ok junk (fv_st hfl) (fv_tG hfl tr) (fv_ga hfl) (t_ops fll) (norep fl fll).
  have := ei fl fll; rewrite /rem /ins /rep !t_pick // => h.
  by move: e1; rewrite [try_flavor _ _ _ _ _ _]h => -[->].
have perm fl : (fl < nf)%N -> perm_eq (target x0 (rsf fl) (inff fl) (ops fl)) (vrows fl (sp_flip d0 vs req)).
  by move=> fll; apply: (target_perm tok t_key (i_uid hi) (i_vo hi) (t_p0 fll) (t_p fll) val).
split=> //=.
- move=> nzK; apply: (step_ratio (i_vo hi) val _); [|exact: t_frat | exact: t_urat].
  rewrite foldl_prod mul1r (big_nth (g0, 0)) big_mkord sz.
  rewrite /SubConf.Dall -big_split /=; apply: eq_bigr => fl _.
  have [e1 _] := q fl (ltn_ord fl).
  by rewrite -(rdet_perm _ _ _ (perm fl (ltn_ord fl))) e1 ?nzK // (rdet_perm _ _ _ (t_p (ltn_ord fl))).
- by rewrite size_map.
- move=> fl fll; have [_ h] := q fl fll.
  by rewrite /Gfl /= (nth_map (g0, 0)) ?sz.
Qed.

Lemma try_mixed_ex : (forall fl, (fl < nf)%N -> [seq o <- ops fl | goes_rep o] = [::]) ->
  exists s1 d f u, try_spin_flip ani U s tm0 req = Ok (s1, (d, f, u)).
Proof.
move=> norep; rewrite /try_spin_flip t_flip_ok t_flip_v0 /= t_oseq /= i_sA //.
set l := flatten _; set rem := pick _ (@goes_rem F) _; set ins := pick _ (@goes_ins F) _; set rep := pick _ (@goes_rep F) _.
have [|rs -> _] := @oseq_iota _ (g0, 0) (fun fl => try_flavor ani (nth (inva_new F Tm) (su_A s) fl) (nth (gmat_new F) (su_G s) fl)
      (nth [::] rem fl) (nth [::] ins fl) (nth [::] rep fl)) (fun _ _ => True) nf.
  move=> fl fll; have hfl := i_fl hi fll.
  have [g' [r [e1 e2 e3]]] := mix_ok junk (fv_st hfl) (fv_tG hfl tr) (fv_ga hfl) (t_ops fll) (norep fl fll).
  by exists (g', r); rewrite // /rem /ins /rep !t_pick.
by do 4 eexists; reflexivity.
Qed.

(* rows switched on and off on the first flavor, and neither no row kept nor as many as
   are switched on *)
Lemma mixed_UB s1 r : (0 < nf)%N -> try_spin_flip ani U s tm0 req = Ok (s1, r) ->
  let nrem := count (@goes_rem F) (ops 0) in let nins := count (@goes_ins F) (ops 0) in
  (0 < nrem)%N -> (0 < nins)%N -> (nrem < size (inff 0))%N -> (size (inff 0) - nrem)%N != nins ->
  perform_spin_flip junk tm0 s1 req = UB.
Proof.
move=> n0; rewrite /try_spin_flip t_flip_ok t_flip_v0 /= t_oseq /= i_sA //.
set l := flatten _; set rem := pick _ (@goes_rem F) _; set ins := pick _ (@goes_ins F) _; set rep := pick _ (@goes_rep F) _.
case e : (oseq _) => [rs| | |] //= [<- _]; rewrite -!size_filter => r0 i0 lt ne.
have ei := oseq_iotaI (g0, 0) e n0.
have sz : (0 < size rs)%N.
  by move: e n0; case: (nf) => // k; rewrite /=; case: (try_flavor _ _ _ _ _ _) => //= x; case: (oseq _) => //= y [<-].
rewrite /perform_spin_flip /= i_sA //.
have -> : all (fun x => x.1 < size (su_v s))%N req by apply/allP => x xi; apply: (req_lt val xi).
rewrite /=; move: ei; rewrite /try_flavor.
have er : nth [::] rem 0 = [seq o <- ops 0 | goes_rem o] by rewrite /rem t_pick.
have eI : nth [::] ins 0 = [seq o <- ops 0 | goes_ins o] by rewrite /ins t_pick.
have c1 : (size (nth [::] rem 0) == 0)%N = false by rewrite er eqn0Ngt r0.
have c2 : (size (nth [::] ins 0) == 0)%N = false by rewrite eI eqn0Ngt i0.
rewrite c1 c2; case c3 : (size (nth [::] rep 0) == 0)%N => //.
rewrite /gm_try_add_remove; case: (oseq _) => //= ll; case: ltnP => // _ [eg].
suff h : perform_flavor junk (nth (gmat_new F) [seq x.1 | x <- rs] 0) (nth [::] rem 0) (nth [::] ins 0) (nth [::] rep 0) = UB.
  by move: h; case: (nf) n0 => // k _ h; rewrite [iota _ _]/= [oseq _]/= h.
rewrite /perform_flavor c1 c2 c3 (nth_map (g0, 0)) // -eg /= /gm_perform_add_remove /src_inverse_replace_rows_cols /=.
have en := ga_n (fv_ga (i_fl hi n0)).
rewrite [gm_n _]en -[gm_info _]/(inff 0) er eI.
have -> : (size (inff 0) - size [seq o <- ops 0 | goes_rem o] == 0)%N = false by apply/negbTE; rewrite -lt0n subn_gt0.
by rewrite ne; case: (_ .2) => [[]|] //; case: (gm_work _) => [[]|].
Qed.

Hypothesis sim : simple U d0 nf vs0 vs req.

Record tried s1 d f u : Prop := Tried {
  td_A : su_A s1 = su_A s; td_v : su_v s1 = su_v s; td_v0 : su_v0 s1 = su_v0 s;
  td_t : su_trying s1 = su_trying s; td_sd : su_sdet s1 = su_sdet s; td_sg : su_sign s1 = su_sign s;
  td_id : su_id s1 = su_id s;
  td_d : su_det_rat s1 = d; td_sr : su_sign_rat s1 = mysign (d * f * u);
  td_D : Dall (sp_flip d0 vs req) = d * Dall vs;
  td_w : d * f * u * wt vs = wt (sp_flip d0 vs req);
  td_sG : size (su_G s1) = nf;
  td_rej : forall fl, (fl < nf)%N ->
    exists2 g3, reject_flavor (Gfl s1 fl) (nth [::] (su_rem s1) fl) (nth [::] (su_ins s1) fl) (nth [::] (su_rep s1) fl)
      = Ok g3 & same_gam (Gfl s fl) g3;
  td_per : wt (sp_flip d0 vs req) != 0 -> forall fl, (fl < nf)%N ->
    exists2 g2, perform_flavor junk (Gfl s1 fl) (nth [::] (su_rem s1) fl) (nth [::] (su_ins s1) fl) (nth [::] (su_rep s1) fl)
      = Ok g2 & gam_ok (Afl s fl) g2 /\
      perm_eq (crows x0 (rsf fl) (gm_info g2)) (vrows fl (sp_flip d0 vs req)) }.

Lemma try_ok : exists s1 d f u, try_spin_flip ani U s tm0 req = Ok (s1, (d, f, u)) /\ tried s1 d f u.
Proof.
rewrite /try_spin_flip t_flip_ok t_flip_v0 /= t_oseq /= i_sA //.
set l := flatten _; set rem := pick _ (@goes_rem F) _; set ins := pick _ (@goes_ins F) _; set rep := pick _ (@goes_rep F) _.
pose Q fl (x : gmat F * F) :=
  [/\ rdet (target x0 (rsf fl) (inff fl) (ops fl)) = x.2 * rdet (crows x0 (rsf fl) (inff fl)),
      exists2 g3, reject_flavor x.1 (nth [::] rem fl) (nth [::] ins fl) (nth [::] rep fl) = Ok g3 & same_gam (Gfl s fl) g3 &
      rdet (target x0 (rsf fl) (inff fl) (ops fl)) != 0 ->
      exists2 g2, perform_flavor junk x.1 (nth [::] rem fl) (nth [::] ins fl) (nth [::] rep fl) = Ok g2 &
        gam_ok (Afl s fl) g2 /\ crows x0 (rsf fl) (gm_info g2) = target x0 (rsf fl) (inff fl) (ops fl)].
have [|rs e [sz q]] := @oseq_iota _ (g0, 0) (fun fl => try_flavor ani (nth (inva_new F Tm) (su_A s) fl) (nth (gmat_new F) (su_G s) fl)
      (nth [::] rem fl) (nth [::] ins fl) (nth [::] rep fl)) Q nf.
  move=> fl fll; have hfl := i_fl hi fll.
  have sm := one_simple tok (rsf fl) t_key t_vo0 (i_vo hi) val (sim fll).
  have [g' [r [e1 e2 e3 e4]]] := flavor_ok junk (fv_st hfl) (fv_tG hfl tr) (fv_ga hfl) (t_ops fll) sm.
  by exists (g', r); rewrite /Q /rem /ins /rep !t_pick.
rewrite e /=; eexists; eexists; eexists; eexists; split; first by reflexivity.
set d := foldl _ 1 rs; set f_rat := foldl _ 1 l; set u := foldl _ 1 req.
have perm fl : (fl < nf)%N -> perm_eq (target x0 (rsf fl) (inff fl) (ops fl)) (vrows fl (sp_flip d0 vs req)).
  by move=> fll; apply: (target_perm tok t_key (i_uid hi) (i_vo hi) (t_p0 fll) (t_p fll) val).
have eD : Dall (sp_flip d0 vs req) = d * Dall vs.
  have -> : d = \prod_(fl < nf) (nth (g0, 0) rs fl).2.
    by rewrite /d foldl_prod mul1r (big_nth (g0, 0)) big_mkord sz.
  rewrite /SubConf.Dall -big_split /=; apply: eq_bigr => fl _.
  have [e1 _ _] := q fl (ltn_ord fl).
  by rewrite -(rdet_perm _ _ _ (perm fl (ltn_ord fl))) e1 (rdet_perm _ _ _ (t_p (ltn_ord fl))).
have ew : d * (1 / f_rat) * u * wt vs = wt (sp_flip d0 vs req).
  by apply: (step_ratio (i_vo hi) val eD); [exact: t_frat | exact: t_urat].
split=> //=.
- by rewrite !mysignM mysign1 mul1r mysignV mulrAC.
- by rewrite size_map.
- move=> fl fll; have [_ h _] := q fl fll.
  by rewrite /Gfl /= (nth_map (g0, 0)) ?sz.
- move=> nz fl fll; have [_ _ h] := q fl fll.
  rewrite /Gfl /= (nth_map (g0, 0)) ?sz //.
  have [|g2 e2 [h1 h2]] := h; last by exists g2 => //; split=> //; rewrite h2; apply: perm.
  rewrite (rdet_perm _ _ _ (perm fl fll)); apply: wt_rdet => //.
  exact: flip_ok_all (i_vo hi) val.
Qed.

(* an alpha that was already changed in the session is changed to a third value *)
Lemma try_throw : (0 < nf)%N -> has (@goes_rep F) (ops 0) -> try_spin_flip ani U s tm0 req = Throw.
Proof.
move=> n0 hr; rewrite /try_spin_flip t_flip_ok t_flip_v0 /= t_oseq /= i_sA //.
set rem := pick _ (@goes_rem F) _; set ins := pick _ (@goes_ins F) _; set rep := pick _ (@goes_rep F) _.
have e : (size (nth [::] rep 0) == 0)%N = false.
  by rewrite /rep t_pick // size_filter; move: hr; rewrite has_count; case: (count _ _).
case: nf n0 rem ins rep e => // n _ rem ins rep e; rewrite [iota _ _]/= [oseq _]/= /try_flavor e.
by case: (size _ == _); case: (size _ == _).
Qed.

End Try.

(* ---- reject_spin_flip and perform_spin_flip ---- *)

Record same_state s s2 : Prop := SameState {
  ss_t : su_trying s2 = su_trying s; ss_A : su_A s2 = su_A s; ss_v : su_v s2 = su_v s;
  ss_v0 : su_v0 s2 = su_v0 s; ss_sd : su_sdet s2 = su_sdet s; ss_sg : su_sign s2 = su_sign s;
  ss_id : su_id s2 = su_id s; ss_sG : size (su_G s2) = nf;
  ss_G : forall fl, (fl < nf)%N -> same_gam (Gfl s fl) (Gfl s2 fl) }.

Lemma inv_same s s2 : inv s -> same_state s s2 -> inv s2.
Proof.
move=> [h1 h2 h3 h4 h5 h6 h7 h8 h9 h10 h11 h12] [t A v v0 sd sg id sG G].
have ei : ini s2 = ini s by rewrite /ini t v v0.
split; rewrite ?A ?v ?t ?ei ?sd ?sg ?id //.
move=> fl fll; have [a b c d e f'] := h8 fl fll; have [e1 e2 e3] := G fl fll.
have eA : Afl s2 fl = Afl s fl by rewrite /Afl A.
split; rewrite ?eA ?ei ?e3 ?t ?v //.
by apply: gam_ok_same b.
Qed.

Lemma reject_ok s req s1 d f u : inv s -> tried s req s1 d f u ->
  exists2 s2, reject_spin_flip s1 = Ok s2 & same_state s s2.
Proof.
move=> hi td; rewrite /reject_spin_flip (td_A td) (i_sA hi).
have [|gs -> [sz q]] := @oseq_iota _ g0 (fun fl => reject_flavor (nth (gmat_new F) (su_G s1) fl)
      (nth [::] (su_rem s1) fl) (nth [::] (su_ins s1) fl) (nth [::] (su_rep s1) fl))
      (fun fl g => same_gam (Gfl s fl) g) nf.
  by move=> fl fll; have [g3 e h] := td_rej td fll; exists g3.
eexists; first by reflexivity.
by split=> //=; rewrite ?(td_A td) ?(td_v td) ?(td_v0 td) ?(td_t td) ?(td_sd td) ?(td_sg td) ?(td_id td).
Qed.

(* the same state, up to the order of the rows of the auxiliary matrices *)
Record perm_state s s2 : Prop := PermState {
  ps_t : su_trying s2 = su_trying s; ps_A : su_A s2 = su_A s; ps_v : su_v s2 = su_v s;
  ps_v0 : su_v0 s2 = su_v0 s; ps_sd : su_sdet s2 = su_sdet s; ps_sg : su_sign s2 = su_sign s;
  ps_id : su_id s2 = su_id s; ps_sG : size (su_G s2) = nf;
  ps_G : forall fl, (fl < nf)%N -> perm_gam (Gfl s fl) (Gfl s2 fl) }.

Lemma inv_perm s s2 : inv s -> perm_state s s2 -> inv s2.
Proof.
move=> [h1 h2 h3 h4 h5 h6 h7 h8 h9 h10 h11 h12] [t A v v0 sd sg id sG G].
have ei : ini s2 = ini s by rewrite /ini t v v0.
split; rewrite ?A ?v ?t ?ei ?sd ?sg ?id //.
move=> fl fll; have [a b c d e f'] := h8 fl fll; have pg := G fl fll.
have eA : Afl s2 fl = Afl s fl by rewrite /Afl A.
have pi := perm_gam_info b pg.
split; rewrite ?eA ?ei ?t ?v //.
- exact: gam_ok_perm b pg.
- rewrite (@crows_perm _ _ x0 _ _ (gm_info (Gfl s fl))) //.
  exact: (io_u (ga_io (gam_ok_perm b pg))).
- by move=> tr; move: pi; rewrite (f' tr) => /perm_nilP.
Qed.

Lemma mreject_ok s req s1 d f u : inv s -> mtried s req s1 d f u ->
  exists2 s2, reject_spin_flip s1 = Ok s2 & perm_state s s2.
Proof.
move=> hi td; rewrite /reject_spin_flip (md_A td) (i_sA hi).
have [|gs -> [sz q]] := @oseq_iota _ g0 (fun fl => reject_flavor (nth (gmat_new F) (su_G s1) fl)
      (nth [::] (su_rem s1) fl) (nth [::] (su_ins s1) fl) (nth [::] (su_rep s1) fl))
      (fun fl g => perm_gam (Gfl s fl) g) nf.
  by move=> fl fll; have [g3 e h] := md_rej td fll; exists g3.
eexists; first by reflexivity.
by split=> //=; rewrite ?(md_A td) ?(md_v td) ?(md_v0 td) ?(md_t td) ?(md_sd td) ?(md_sg td) ?(md_id td).
Qed.

(* ---- requests that switch vertices back and away ---- *)

Lemma sp_changes_all (P : pred (option F * option F * option F)) vs0 vs (req : request) fl :
  all P (sp_changes U d0 vs0 vs req fl) = all (fun x => all P (sp_changes U d0 vs0 vs [:: x] fl)) req.
Proof.
elim: req => [//|x l IH]; rewrite [RHS]/= -IH -all_cat; congr all.
by rewrite /sp_changes /= cats0 filter_cat.
Qed.

Lemma valid_filter (b : pred (nat * option nat)) vs (req : request) :
  valid_req U d0 vs req -> valid_req U d0 vs [seq x <- req | b x].
Proof.
case/andP => u a; rewrite /valid_req all_filter; apply/andP; split; last first.
  by apply/allP => x xi; apply/implyP => _; apply: (allP a).
apply: (subseq_uniq _ u); apply: map_subseq; exact: filter_subseq.
Qed.

Lemma split_ratio s (req : request) : inv s -> su_trying s -> valid_req U d0 (su_v s) req ->
  all (fun x => sp_back U d0 nf (su_v0 s) (su_v s) x || sp_away U d0 nf (su_v0 s) (su_v s) x) req ->
  wt (sp_flip d0 (su_v s) [seq x <- req | sp_back U d0 nf (su_v0 s) (su_v s) x]) != 0 ->
  exists s1 d f u, try_spin_flip ani U s tm0 req = Ok (s1, (d, f, u)) /\
    d * f * u * wt (su_v s) = wt (sp_flip d0 (su_v s) req).
Proof.
move=> hi tr val cl nz.
set b := sp_back _ _ _ _ _ in cl nz.
set r1 := filter b req in nz; pose r2 := [seq x <- req | ~~ b x].
have v1 : valid_req U d0 (su_v s) r1 by apply: valid_filter.
have v2 : valid_req U d0 (su_v s) r2 by apply: valid_filter.
have back fl : (fl < nf)%N -> all (fun c => c.1.1 == c.2) (sp_changes U d0 (su_v0 s) (su_v s) r1 fl).
  move=> fll; rewrite sp_changes_all all_filter; apply/allP => x xi; apply/implyP => /allP; apply.
  by rewrite mem_iota.
have away fl : (fl < nf)%N -> all (fun c => c.1.1 == c.1.2) (sp_changes U d0 (su_v0 s) (su_v s) r2 fl).
  move=> fll; rewrite sp_changes_all all_filter; apply/allP => x xi; apply/implyP => nb.
  have := allP cl x xi; rewrite (negbTE nb) /= => /allP; apply.
  by rewrite mem_iota.
have d1 fl (fll : (fl < nf)%N) := (one_dir tok (rsf s fl) fl (t_key hi tr) (t_vo0 hi tr) (i_vo hi) v1).2 (back fl fll).
have d2 fl (fll : (fl < nf)%N) := (one_dir tok (rsf s fl) fl (t_key hi tr) (t_vo0 hi tr) (i_vo hi) v2).1 (away fl fll).
have opsE fl (P : pred (opu F)) : [seq o <- ops s r2 fl | P o] = [::] ->
    [seq o <- ops s req fl | P o] = [seq o <- ops s r1 fl | P o].
  rewrite /ops /opsl /r1 /r2; elim: (req) => [//|x l IH] /=; case: (b x) => /=.
    by move=> h; rewrite !filter_cat IH.
  by rewrite !filter_cat => /(congr1 size); rewrite size_cat /= => /eqP; rewrite addn_eq0 => /andP [/nilP -> /nilP h]; apply: IH.
have norep fl : (fl < nf)%N -> [seq o <- ops s req fl | goes_rep o] = [::].
  by move=> fll; rewrite opsE; [case: (d1 fl fll) | case: (d2 fl fll)].
have [s1 [d [f [u e]]]] := try_mixed_ex hi tr val norep.
exists s1, d, f, u; split=> //; apply: (md_w (try_mixed hi tr val e)) => fl fll.
rewrite opsE; last by case: (d2 fl fll).
have hfl := i_fl hi fll; case: (d1 fl fll) => p1 p2.
rewrite (target_rem (fv_ga hfl) (t_ops hi tr v1 fll)) //; last by split=> //; right.
rewrite (rdet_perm _ _ _ (target_perm tok (t_key hi tr) (i_uid hi) (i_vo hi) (t_p0 hi tr fll) (t_p hi fll) v1)).
apply: wt_rdet => //; exact: flip_ok_all (i_vo hi) v1.
Qed.

Lemma vkey_set v st : vkey (sp_set v st) = vkey v :> (nat * Tm * nat). Proof. by case: st. Qed.

Lemma vkey_flip vs req : map (@vkey Tm) (sp_flip d0 vs req) = map (@vkey Tm) vs.
Proof.
apply: (@eq_from_nth _ (vkey d0)); rewrite !size_map ?size_iota // => i il.
rewrite !(nth_map d0) ?size_sp_flip // nth_sp_flip //; case: ifP => // _; exact: vkey_set.
Qed.

Lemma perform_ok s req s1 d f u : inv s -> su_trying s -> valid_req U d0 (su_v s) req ->
  tried s req s1 d f u -> wt (sp_flip d0 (su_v s) req) != 0 ->
  exists2 s2, perform_spin_flip junk tm0 s1 req = Ok s2 &
    [/\ inv s2, su_trying s2, su_v s2 = sp_flip d0 (su_v s) req & su_v0 s2 = su_v0 s].
Proof.
move=> hi tr val td nz; rewrite /perform_spin_flip (td_A td) (i_sA hi) (td_v td).
have al : all (fun x => x.1 < size (su_v s))%N req.
  by apply/allP => x xi; apply: (req_lt val xi).
rewrite al /=.
have [|gs -> [sz q]] := @oseq_iota _ g0 (fun fl => perform_flavor junk (nth (gmat_new F) (su_G s1) fl)
      (nth [::] (su_rem s1) fl) (nth [::] (su_ins s1) fl) (nth [::] (su_rep s1) fl))
      (fun fl g => gam_ok (Afl s fl) g /\ perm_eq (crows x0 (ia_rows (Afl s fl)) (gm_info g)) (vrows fl (sp_flip d0 (su_v s) req))) nf.
  by move=> fl fll; have [g2 e h] := td_per td nz fll; exists g2.
eexists; first by reflexivity.
set s2 := Sub _ _ _ _ _ _ _ _ _ _ _ _ _.
have ev : su_v s2 = sp_flip d0 (su_v s) req.
  by apply: flip_verticesE => //; case/andP: val.
have ei : ini s2 = su_v0 s by rewrite /ini /= (td_t td) tr (td_v0 td).
have ei' : ini s = su_v0 s by rewrite /ini tr.
split=> //; rewrite ?(td_t td) //=; last by rewrite (td_v0 td).
have ek := i_key hi; have := i_vo0 hi; rewrite ei' in ek *.
move=> vo0; split; rewrite ?ev ?ei //.
- exact: (i_sA hi).
- by rewrite vkey_flip.
- by rewrite (vkey_uids (vkey_flip _ _)) (i_uid hi).
- rewrite -(all_map (@v_uid Tm) (fun k => k <= su_id s2)%N) (vkey_uids (vkey_flip _ _)) all_map /=.
  by rewrite (td_id td); apply: (i_id hi).
- exact: flip_ok_all (i_vo hi) val.
- move=> fl fll; have [a b c e f' g'] := i_fl hi fll; have [q1 q2] := q fl fll.
  have eA : Afl s2 fl = Afl s fl by rewrite /Afl.
  split; rewrite ?eA ?ei ?ev //; first by move: c; rewrite ei'.
  + by move=> _; apply: f'.
  + by rewrite /= (td_t td) tr.
- by rewrite /= (td_sr td) -(td_w td) (mysignM (d * f * u)) (td_sg td) (i_sign hi) mulrC.
- by rewrite /= (td_sd td) (i_sdet hi) (td_d td) (td_D td) mysignM mulrC.
- by rewrite /= (td_t td) tr.
Qed.

(* ---- vertices that do not interact ---- *)

Lemma sp_ops_ints fl (vs : seq vtx) : sp_ops U fl vs = sp_ops U fl [seq v <- vs | ~~ v_non v].
Proof. by rewrite /sp_ops filter_id . Qed.

Lemma wd_ints (vs : seq vtx) : wd G0 U x0 nf vs = wd G0 U x0 nf [seq v <- vs | ~~ v_non v].
Proof. by rewrite /wd; apply: eq_bigr => fl _; rewrite sp_ops_ints. Qed.

Lemma wt_ints (vs : seq vtx) : wt vs = wt [seq v <- vs | ~~ v_non v].
Proof.
rewrite /weight; congr (_ * _); last by rewrite big_filter_cond; apply: eq_bigl => v; rewrite andbb.
by apply: eq_bigr => fl _; rewrite -sp_ops_ints.
Qed.

Lemma hf_non (v : vtx) : v_non v -> hf ani U v = 1.
Proof. by move=> n; rewrite /hf big1 // => r _; rewrite /v_state n /SubConf.alp /alpha_of /gfac eqxx. Qed.

Lemma Dall_ints (vs : seq vtx) : all (sp_vertex_ok U) vs -> Dall vs = Dall [seq v <- vs | ~~ v_non v].
Proof.
move=> ok; rewrite !(DallE _ _ tok) //; last by apply/allP => v; rewrite mem_filter => /andP [_ /(allP ok)].
rewrite -wd_ints; congr (_ * _); rewrite big_filter [RHS]big_mkcond; apply: eq_bigr => v _.
by case nv : (v_non v) => //=; rewrite hf_non.
Qed.

Lemma ints_added (vs new : seq vtx) : all (fun v : vtx => v_non v) new ->
  [seq v <- vs ++ new | ~~ v_non v] = [seq v <- vs | ~~ v_non v].
Proof.
move=> h; rewrite filter_cat (_ : [seq v <- new | ~~ v_non v] = [::]) ?cats0 //.
by elim: new h => [//|v l IH] /= /andP [-> /IH ->].
Qed.

(* ---- building rows ---- *)

Definition add_rows (m : inva F Tm) (l : seq row) : inva F Tm :=
  InvA (ia_n m) (ia_mat m) (ia_tG m) (ia_rows m ++ l).
Lemma add_rows0 m : add_rows m [::] = m. Proof. by case: m => *; rewrite /add_rows cats0. Qed.
Lemma add_rows_cat m l l' : add_rows (add_rows m l) l' = add_rows m (l ++ l').
Proof. by rewrite /add_rows /= catA. Qed.

Lemma push_ok (alpha : vtx -> nat -> F) v (As : seq (inva F Tm)) fl :
  (v_type v < size U)%N -> size As = nf -> (fl < nf)%N ->
  size (push_vertex U alpha As v) = nf /\
  nth A0 (push_vertex U alpha As v) fl =
  add_rows (nth A0 As fl) [seq vrow U v (alpha v r) r | r <- iota 0 (rank_of v) & sp_flavor U v r == fl].
Proof.
move=> tv; rewrite /push_vertex -/(sp_def U v) -/(rank_of v).
have : all (fun r => sp_flavor U v r < nf)%N (iota 0 (rank_of v)).
  by apply/allP => r; rewrite mem_iota add0n => /andP [_ rl]; apply: (flavor_lt tok).
elim: (iota 0 (rank_of v)) As => [|r l IH] As /=; first by move=> _ sz _; rewrite add_rows0.
case/andP => rf al sz fll.
set As' := push_flavor _ _ _.
have sz' : size As' = nf by rewrite /As' /push_flavor size_set_nth sz (maxn_idPr rf).
have [e1 e2] := IH As' al sz' fll; split=> //; rewrite e2.
rewrite /As' /push_flavor nth_set_nth /= eq_sym -/(sp_flavor U v r).
case: (sp_flavor U v r =P fl) => [e|//] /=.
by rewrite -[vflavor U v r]/(sp_flavor U v r) e /push_back_op /add_rows /= -cats1 -catA.
Qed.

Lemma push_all (alpha : vtx -> nat -> F) vs (As : seq (inva F Tm)) fl :
  all (fun v => v_type v < size U)%N vs -> size As = nf -> (fl < nf)%N ->
  (forall v r, v \in vs -> alpha v r = alp v (v_state v) r) ->
  size (foldl (push_vertex U alpha) As vs) = nf /\
  nth A0 (foldl (push_vertex U alpha) As vs) fl = add_rows (nth A0 As fl) (vrows fl vs).
Proof.
elim: vs As => [|v vs IH] As /=; first by move=> _ sz _ _; rewrite add_rows0.
case/andP => tv al sz fll ha.
have [sz' e'] := push_ok alpha tv sz fll.
have [|sz2 e2] := IH _ al sz' fll; first by move=> w r wi; apply: ha; rewrite inE wi orbT.
split=> //; rewrite e2 e' add_rows_cat /SubConf.vrows /=; congr (add_rows _ (_ ++ _)).
by apply: eq_map => r; rewrite /vr ha // mem_head.
Qed.

Lemma push_size (alpha : vtx -> nat -> F) vs (As : seq (inva F Tm)) :
  all (fun v => v_type v < size U)%N vs -> size As = nf -> size (foldl (push_vertex U alpha) As vs) = nf.
Proof.
elim: vs As => [//|v vs IH] As /= /andP [tv al] sz; apply: IH => //.
by have [] := push_ok alpha tv sz (flavor_lt tok tv (rank_gt0 tok tv)).
Qed.

(* ---- init_update ---- *)

Lemma extend_static m l : static m -> all (fun r => ar_alpha r == ani) l ->
  static (ia_extend ani G0 x0 (add_rows m l)) /\ ia_rows (ia_extend ani G0 x0 (add_rows m l)) = ia_rows m ++ l.
Proof.
move=> [h1 h2 h3] al; split=> //; split=> //=.
- rewrite size_cat /ia_extend /= h1.
  have := inv_extend (rf_cat_non x0 al (rs := ia_rows m)) (G := rG G0 x0 (ia_rows m ++ l)) (Ai := ia_mat m).
  apply; apply: inverse_of_ext h2; last exact: feq_refl.
  by apply: feq_sym; apply: rA_cat.
- rewrite all_cat h3 /=; apply: sub_all al => r; by rewrite /good => ->.
Qed.

Lemma tG_ok m : static m -> static (ia_update_tG ani G0 x0 m) /\ has_tG (ia_update_tG ani G0 x0 m).
Proof.
move=> [h1 h2 h3]; split; first by split.
move=> i j il jl /=; rewrite h1.
case: (ar_alpha (ia_row x0 m j) =P ani) => //= /eqP h.
have gj : good ani (ar_alpha (ia_row x0 m j)) by apply: (allP h3); apply: mem_nth.
have fj : rf ani x0 (ia_rows m) j != 1.
  by apply: f_ne1 => //; move: gj; rewrite /good (negbTE h) => /andP [].
rewrite (tG_fast h2 il jl fj) /rf; case: (i =P j) => [->|_] //=; last by rewrite subr0.
Qed.

Lemma number_non id new : all (fun v : vtx => v_non v) (number_vertices id new).
Proof. by apply/allP => v /mapP [x _ ->]. Qed.

Lemma number_uids id (new : seq vtx) : [seq v_uid v | v <- number_vertices id new] = iota id.+1 (size new).
Proof.
rewrite /number_vertices -map_comp.
have -> : [seq (@v_uid Tm \o (fun x : vtx * nat => set_uid (set_state x.1 None) x.2)) x | x <- zip new (iota id.+1 (size new))]
  = unzip2 (zip new (iota id.+1 (size new))) by apply: eq_map.
by rewrite unzip2_zip // size_iota.
Qed.

Lemma number_types id (new : seq vtx) : [seq v_type v | v <- number_vertices id new] = [seq v_type v | v <- new].
Proof.
rewrite /number_vertices -map_comp.
have -> : [seq (@v_type Tm \o (fun x : vtx * nat => set_uid (set_state x.1 None) x.2)) x | x <- zip new (iota id.+1 (size new))]
  = [seq v_type v | v <- unzip1 (zip new (iota id.+1 (size new)))] by rewrite -map_comp; apply: eq_map.
by rewrite unzip1_zip // size_iota.
Qed.

Lemma types_ok_all (new : seq vtx) : all (fun v => v_type v < size U)%N new ->
  all (fun v => type_ok U nf (v_type v)) new.
Proof.
apply: sub_all => v tv; rewrite /type_ok tv /=.
have := type_okP tok tv => /and5P [_ /eqP e1 /eqP e2 h3 _].
rewrite -/(sp_def U v) e1 e2 !leqnn /=; apply/allP => r; rewrite mem_iota add0n => /andP [_ rl].
by apply: (allP h3); apply: mem_nth; rewrite e1.
Qed.

Lemma init_ok s new : inv s -> ~~ su_trying s -> all (fun v => v_type v < size U)%N new ->
  exists2 s2, init_update ani G0 U x0 s new = Ok s2 &
    [/\ inv s2, su_trying s2, su_v s2 = su_v s ++ number_vertices (su_id s) new & su_v0 s2 = su_v s2].
Proof.
move=> hi tr tn; rewrite /init_update (i_sA hi) types_ok_all //=.
set added := number_vertices _ _; set As := (if _ then _ else _).
eexists; first by reflexivity.
set s2 := Sub _ _ _ _ _ _ _ _ _ _ _ _ _; split=> //.
have na : all (fun v : vtx => v_non v) added by apply: number_non.
have ta : all (fun v => v_type v < size U)%N added.
  by rewrite -(all_map (@v_type Tm) (fun t => t < size U)%N) number_types all_map.
have oka : all (sp_vertex_ok U) added.
  by apply/allP => v vi; rewrite /sp_vertex_ok (allP ta) // (allP na).
have hA fl : (fl < nf)%N -> size As = nf /\ (static (nth A0 As fl) /\ ia_rows (nth A0 As fl) = ia_rows (Afl s fl) ++ vrows fl added).
  move=> fll; have hfl := i_fl hi fll; rewrite /As; case: eqP => [z|_].
    have -> : added = [::] by apply: size0nil; rewrite size_map size_zip size_iota minnn.
    by rewrite cats0 (i_sA hi); split=> //; split=> //; apply: (fv_st hfl).
  have ha v r : v \in added -> ani = alp v (v_state v) r by move=> vi; rewrite /v_state (allP na).
  have [sz e] := push_all ta (i_sA hi) fll ha.
  rewrite size_map sz; split=> //; rewrite (nth_map A0) ?sz // e.
  apply: extend_static; first exact: (fv_st hfl).
  by apply/allP => x /vrowsP [v [r [vi _ _ ->]]]; rewrite vr_alpha -ha.
have ei : ini s2 = su_v s2 by [].
have eG fl : Gfl s2 fl = Gfl s fl by [].
have wE : wt (su_v s2) = wt (su_v s) by rewrite wt_ints [RHS]wt_ints /= ints_added.
have vo2 : all (sp_vertex_ok U) (su_v s2) by rewrite /= all_cat (i_vo hi).
split; rewrite ?ei //.
- rewrite /= size_map /As; case: eqP => _; rewrite ?(i_sA hi) // size_map.
  exact: push_size ta (i_sA hi).
- exact: (i_sG hi).
- rewrite /= map_cat cat_uniq (i_uid hi) number_uids iota_uniq andbT /=.
  apply/hasPn => k; rewrite mem_iota => /andP [k1 _]; apply/negP => /mapP [v vi e].
  by have := allP (i_id hi) _ vi; rewrite -e leqNgt k1.
- rewrite /= all_cat; apply/andP; split.
    by apply: sub_all (i_id hi) => v h; apply: leq_trans h (leq_addr _ _).
  rewrite -(all_map (@v_uid Tm) (fun k => k <= su_id s + size new)%N) number_uids.
  by apply/allP => k; rewrite mem_iota; lia.
- move=> fl fll; have [sz [hs hr]] := hA fl fll; have hfl := i_fl hi fll.
  have eA : Afl s2 fl = ia_update_tG ani G0 x0 (nth A0 As fl).
    by rewrite /Afl /= (nth_map A0) ?sz.
  have [t1 t2] := tG_ok hs.
  have nil : gm_info (Gfl s fl) = [::] by apply: (fv_ready hfl).
  have pp : perm_eq (ia_rows (Afl s2 fl)) (vrows fl (su_v s2)).
    rewrite eA /= hr vrows_cat perm_cat2r.
    by have := fv_p0 hfl; rewrite /ini (negbTE tr).
  split=> //; rewrite ?eA ?eG //.
  + case: (fv_ga hfl) => g1 g2 g3; split; rewrite ?nil //; by rewrite g1 nil.
  + by rewrite nil crows0 -eA.
- by rewrite wE (i_w hi).
- by rewrite wE (i_sign hi).
- rewrite /= (i_sdet hi) [in RHS]Dall_ints // ints_added // -Dall_ints //; exact: (i_vo hi).
Qed.

(* ---- finalize_update ---- *)

Lemma oseq_throw (A B : Type) (h : A -> outcome B) (d : A) (l : seq A) :
  (forall i, (i < size l)%N -> h (nth d l i) = Throw \/ exists y, h (nth d l i) = Ok y) ->
  (exists2 i, (i < size l)%N & h (nth d l i) = Throw) -> oseq (map h l) = Throw.
Proof.
elim: l => [_ [i] //|x l IH] H [i il e] /=.
case: (H 0%N isT) => /= [-> //|[y ey]]; rewrite ey /=.
rewrite IH //; first by move=> j jl; apply: (H j.+1).
by case: i il e => [|i] il e; [move: e; rewrite /= ey | exists i].
Qed.

Section Finalize.
Variable s : sub F Tm.
Hypothesis hi : inv s.
Let vs := su_v s.
Let uids := [seq v_uid v | v <- vs & v_non v].
Let vs' := [seq v <- vs | ~~ v_non v].

Lemma uid_eq v w : v \in vs -> w \in vs -> v_uid v = v_uid w -> v = w.
Proof.
move=> vi wi e; have u := i_uid hi.
have h1 : index v vs = index w vs.
  apply/eqP; rewrite -(nth_uniq 0%N _ _ u) ?size_map ?index_mem //.
  by rewrite !(nth_map d0) ?index_mem // !nth_index // e.
by rewrite -(nth_index d0 vi) h1 nth_index.
Qed.

Lemma uids_mem v : v \in vs -> (v_uid v \in uids) = v_non v.
Proof.
move=> vi; apply/mapP/idP => [[w]|nv]; last by exists v => //; rewrite mem_filter nv.
rewrite mem_filter => /andP [nw wi] e.
by rewrite (uid_eq vi wi e).
Qed.

Lemma vrows_cut fl : [seq r <- vrows fl vs | ar_uid r \notin uids] = vrows fl vs'.
Proof.
suff h l : {subset l <= vs} ->
  [seq r <- vrows fl l | ar_uid r \notin uids] = vrows fl [seq v <- l | ~~ v_non v] by apply: h.
elim: l => [//|v l IH] sub; rewrite /SubConf.vrows /= filter_cat.
rewrite -[flatten _]/(vrows fl l) IH; last by move=> w wi; apply: sub; rewrite inE wi orbT.
have vi : v \in vs by apply: sub; rewrite mem_head.
have -> : [seq r <- vrow1 ani U fl v | ar_uid r \notin uids] = if v_non v then [::] else vrow1 ani U fl v.
  rewrite /vrow1 filter_map.
  have -> : [seq x <- [seq r <- iota 0 (rank_of v) | sp_flavor U v r == fl] | preim (vr ani U v) (fun r => ar_uid r \notin uids) x]
     = [seq x <- [seq r <- iota 0 (rank_of v) | sp_flavor U v r == fl] | ~~ v_non v].
    by apply: eq_filter => r /=; rewrite -(uids_mem vi).
  by case: (v_non v); rewrite ?filter_pred0 ?filter_predT.
by case: (v_non v).
Qed.

Lemma present_cov fl rs : perm_eq rs (vrows fl vs) ->
  all (fun u => has (fun r : row => ar_uid r == u) rs) uids =
  all (fun v => v_non v ==> has (fun r => sp_flavor U v r == fl) (iota 0 (rank_of v))) vs.
Proof.
move=> pe; rewrite /uids all_map all_filter; apply: eq_in_all => v vi /=.
case nv : (v_non v) => //=.
rewrite (eq_has_r (perm_mem pe)); apply/hasP/hasP => [[x /vrowsP [w [r [wi rl rf ->]]] /eqP e]|[r]].
  exists r; last by move: rf; rewrite -(uid_eq wi vi e) => ->.
  by rewrite mem_iota -(uid_eq wi vi e).
rewrite mem_iota add0n => /andP [_ rl] /eqP rf; exists (vr ani U v r) => //.
by apply/vrowsP; exists v, r.
Qed.

Lemma update_all : exists2 As1,
  oseq [seq ia_update ani x0 (nth A0 (su_A s) fl) (nth g0 (su_G s) fl) | fl <- iota 0 nf] = Ok As1 &
  size As1 = nf /\ forall fl, (fl < nf)%N ->
    static (nth A0 As1 fl) /\ perm_eq (ia_rows (nth A0 As1 fl)) (vrows fl vs).
Proof.
apply: (@oseq_iota _ A0 _ (fun fl m => static m /\ perm_eq (ia_rows m) (vrows fl vs))) => fl fll.
have [a b c d e f] := i_fl hi fll.
have [|m1 -> [st er]] := update_ok a _ b.
  by case tr : (su_trying s) e f => e f; [move=> _; apply: e | rewrite f].
by exists m1 => //; split=> //; rewrite er.
Qed.

Lemma non_rows fl rs : (fl < nf)%N -> perm_eq rs (vrows fl vs) ->
  forall r, r \in rs -> ar_uid r \in uids -> ar_alpha r = ani.
Proof.
move=> fll pe r; rewrite (perm_mem pe) => /vrowsP [v [k [vi kl _ ->]]].
by rewrite -[ar_uid _]/(v_uid v) uids_mem // vr_alpha /SubConf.alp /v_state => ->.
Qed.

Lemma uids_uniq : uniq uids.
Proof. by apply: subseq_uniq (i_uid hi); apply: map_subseq; apply: filter_subseq. Qed.

Lemma finalize_throw : ~~ all (fun v => v_non v ==> sp_covers U nf v) vs ->
  finalize_update ani x0 s = Throw.
Proof.
move=> /allPn [v vi]; rewrite negb_imply => /andP [nv /allPn [fl]].
rewrite mem_iota add0n => /andP [_ fll] nh.
rewrite /finalize_update (i_sA hi).
have [As1 -> [sz q]] := update_all.
rewrite -/vs -/uids /= -/A0; rewrite (@oseq_throw _ _ _ A0) //.
  rewrite sz => i il; have [st pe] := q _ il.
  case pr : (all (fun u => has (fun r : row => ar_uid r == u) (ia_rows (nth A0 As1 i))) uids).
    by right; have [m2 -> _] := remove_ok st uids_uniq (non_rows il pe) pr; exists m2.
  by left; apply: remove_throw; rewrite pr.
exists fl; first by rewrite sz.
apply: remove_throw; have [st pe] := q _ fll; rewrite (present_cov pe).
by apply/allPn; exists v => //; rewrite negb_imply nv.
Qed.

Lemma finalize_ok : all (fun v => v_non v ==> sp_covers U nf v) vs ->
  exists2 s2, finalize_update ani x0 s = Ok s2 &
    [/\ inv s2, ~~ su_trying s2, su_v s2 = vs' & su_sign s2 = su_sign s].
Proof.
move=> cov; rewrite /finalize_update (i_sA hi).
have [As1 -> [sz q]] := update_all; rewrite /= -/vs -/uids -/vs'.
have [|As2 -> [sz2 q2]] := @oseq_ex _ _ A0 A0 (fun m => ia_remove x0 m uids)
    (fun m m2 => static m -> static m2 /\ perm_eq (ia_rows m2) [seq r <- ia_rows m | ar_uid r \notin uids]) As1.
  rewrite sz => fl fll; have [st pe] := q _ fll.
  have [|m2 e [h1 h2]] := remove_ok st uids_uniq (non_rows fll pe); last by exists m2.
  rewrite (present_cov pe); apply/allP => v vi; have := allP cov _ vi.
  case: (v_non v) => //= /allP h; apply: h; by rewrite mem_iota.
rewrite /=.
have h2 fl : (fl < nf)%N -> static (nth A0 As2 fl) /\ perm_eq (ia_rows (nth A0 As2 fl)) (vrows fl vs').
  move=> fll; have [st pe] := q _ fll; have [|h1 h2] := q2 fl _ st; first by rewrite sz.
  split=> //; apply: (perm_trans h2); rewrite -vrows_cut; exact: perm_filter.
have ok' : all (sp_vertex_ok U) vs' by apply/allP => v; rewrite mem_filter => /andP [_ /(allP (i_vo hi))].
have in' : all (fun v => ~~ v_non v) vs' by apply/allP => v; rewrite mem_filter => /andP [].
rewrite ifF; last first.
  apply/negbTE; rewrite -all_predC; apply/(all_nthP A0); rewrite sz2 sz => fl fll /=.
  have [_ pe] := h2 _ fll; apply/hasPn => r; rewrite (perm_mem pe) => /vrowsP [v [k [vi kl _ ->]]].
  have := allP ok' _ vi; rewrite vertex_okE => /andP [tv sv].
  by rewrite vr_alpha (alp_ani tok) // /v_state (negbTE (allP in' _ vi)).
eexists; first by reflexivity.
set s2 := Sub _ _ _ _ _ _ _ _ _ _ _ _ _; split=> //.
have ei : ini s2 = vs' by [].
split; rewrite ?ei //.
- by rewrite /= sz2.
- by rewrite /= size_map (i_sG hi).
- by apply: subseq_uniq (i_uid hi); apply: map_subseq; apply: filter_subseq.
- by apply/allP => v; rewrite mem_filter => /andP [_ /(allP (i_id hi))].
- move=> fl fll; have [h1 h3] := h2 _ fll.
  have eG : Gfl s2 fl = gm_clear (Gfl s fl).
    by rewrite /Gfl /s2 [su_G _]/= (nth_map g0) ?(i_sG hi).
  split=> //; rewrite ?eG //=.
  by rewrite crows0.
- by rewrite -wt_ints (i_w hi).
- by rewrite -wt_ints (i_sign hi).
- by rewrite /= (i_sdet hi) Dall_ints // (i_vo hi).
Qed.

End Finalize.

(* ---- recompute_matrix and the constructors ---- *)

Lemma mysign_prod (T : Type) (l : seq T) (h : T -> F) : \prod_(x <- l) mysign (h x) = mysign (\prod_(x <- l) h x).
Proof. by elim: l => [|x l IH]; rewrite ?big_nil ?mysign1 // !big_cons IH mysignM. Qed.

Lemma mysign2 (x : F) : mysign (mysign x) = mysign x.
Proof.
case: (x =P 0) => [->|/eqP nz]; first by rewrite /mysign !mul0r.
by rewrite {1}/mysign; rewrite /mysign normf_div normr_id divff ?normr_eq0 // divr1.
Qed.

Lemma recompute_one m : (ia_rows m = [::] -> ia_n m = 0%N) -> all (fun r => good ani (ar_alpha r)) (ia_rows m) ->
  all (fun r => ar_alpha r != ani) (ia_rows m) -> rdet (ia_rows m) != 0 ->
  exists2 r, ia_recompute ani G0 x0 m = Ok r &
    [/\ static r.1.1, ia_rows r.1.1 = ia_rows m, r.1.2 = mysign (rdet (ia_rows m)) &
        r.2 = mysign (\prod_(x <- ia_rows m) gfac ani (ar_alpha x))].
Proof.
move=> h0 g na nz; rewrite /ia_recompute.
case: (altP (size (ia_rows m) =P 0%N)) => [z|ne].
  have e := size0nil z; eexists; first by reflexivity.
  rewrite e; split=> //=; last by rewrite big_nil mysign1.
    by split; rewrite ?e ?h0.
  by rewrite /SubRows.rdet det_ofE /fdet det_mx00 mysign1.
rewrite ifF; last by apply/negbTE; rewrite -all_predC.
eexists; first by reflexivity.
split=> //=; first split=> //=.
- exact: finv_inverse.
- by rewrite /phase ifF //; apply/negbTE.
- rewrite (foldl_prod (fun r => (1 - eval_f ani (ar_alpha r)) / `|1 - eval_f ani (ar_alpha r)|)) mul1r -mysign_prod.
  by apply: eq_big_seq => r ri; rewrite /gfac (negbTE (allP na _ ri)).
Qed.

Lemma recompute_all (As : seq (inva F Tm)) vs : size As = nf -> all (sp_vertex_ok U) vs ->
  all (fun v => ~~ v_non v) vs -> wt vs != 0 ->
  (forall fl, (fl < nf)%N -> perm_eq (ia_rows (nth A0 As fl)) (vrows fl vs) /\
     (ia_rows (nth A0 As fl) = [::] -> ia_n (nth A0 As fl) = 0%N)) ->
  exists2 As', recompute_flavors ani G0 x0 As = Ok (As', mysign (Dall vs), mysign (\prod_(v <- vs) hf ani U v)) &
    size As' = nf /\ forall fl, (fl < nf)%N ->
      static (nth A0 As' fl) /\ ia_rows (nth A0 As' fl) = ia_rows (nth A0 As fl).
Proof.
move=> sz ok int nz h; rewrite /recompute_flavors.
have [|rs -> [szr q]] := @oseq_ex _ _ A0 (A0, 0, 0) (ia_recompute ani G0 x0)
   (fun m r => [/\ static r.1.1, ia_rows r.1.1 = ia_rows m, r.1.2 = mysign (rdet (ia_rows m)) &
        r.2 = mysign (\prod_(x <- ia_rows m) gfac ani (ar_alpha x))]) As.
  rewrite sz => fl fll; have [pe h0] := h _ fll; apply: recompute_one => //.
  - by rewrite (perm_all _ pe); apply: (vrows_good tok).
  - rewrite (perm_all _ pe); apply/allP => r /vrowsP [v [k [vi kl _ ->]]].
    have := allP ok _ vi; rewrite vertex_okE => /andP [tv sv].
    by rewrite vr_alpha (alp_ani tok) // /v_state (negbTE (allP int _ vi)).
  - by rewrite (rdet_perm _ _ _ pe); apply: wt_rdet.
rewrite sz in szr q.
eexists.
  rewrite /=; congr (Ok (_, _, _)).
    rewrite (foldl_prod (fun x : inva F Tm * F * F => x.1.2)) mul1r (big_nth (A0, 0, 0)) szr big_mkord.
    rewrite /SubConf.Dall -(big_mkord xpredT (fun fl => rdet (vrows fl vs))) -mysign_prod big_mkord.
    apply: eq_bigr => fl _; have [_ _ -> _] := q _ (ltn_ord fl); have [pe _] := h _ (ltn_ord fl).
    by rewrite (rdet_perm _ _ _ pe).
  rewrite (foldl_prod (fun x : inva F Tm * F * F => x.2)) mul1r (big_nth (A0, 0, 0)) szr big_mkord.
  rewrite -(prod_gfac tok) // -(big_mkord xpredT (fun fl => \prod_(r <- vrows fl vs) gfac ani (ar_alpha r))) -mysign_prod big_mkord.
  apply: eq_bigr => fl _; have [_ _ _ ->] := q _ (ltn_ord fl); have [pe _] := h _ (ltn_ord fl).
  by rewrite (perm_big _ pe).
rewrite size_map; split=> // fl fll; rewrite (nth_map (A0, 0, 0)) ?szr //.
by have [h1 h2 _ _] := q _ fll.
Qed.

Lemma sign_all vs : all (sp_vertex_ok U) vs -> all (fun v => ~~ v_non v) vs ->
  mysign (Dall vs) / mysign (\prod_(v <- vs) hf ani U v) * \prod_(v <- vs) mysign (- vd_U (get_vertex U (v_type v)))
  = mysign (wt vs).
Proof.
move=> ok int; rewrite mysign_prod -mysignV -!mysignM wt_Dall //; congr mysign; congr (_ * _).
by apply: eq_big_seq => v vi; rewrite /hU (negbTE (allP int _ vi)).
Qed.

Lemma recompute_ok s : inv s -> ~~ su_trying s ->
  exists2 s2, recompute_matrix ani G0 U x0 s = Ok s2 &
    [/\ inv s2, ~~ su_trying s2, su_v s2 = su_v s, su_sign s2 = su_sign s &
        forall fl, (fl < nf)%N -> ia_rows (Afl s2 fl) = ia_rows (Afl s fl)].
Proof.
move=> hi tr; rewrite /recompute_matrix (negbTE tr).
have ei : ini s = su_v s by rewrite /ini (negbTE tr).
have [|As' -> [sz q]] := recompute_all (i_sA hi) (i_vo hi) (i_ready hi tr) (i_w hi).
  move=> fl fll; have hf := i_fl hi fll; have := fv_p0 hf; rewrite ei; split=> //.
  by rewrite -/(Afl s fl) => z; have := st_n (fv_st hf); rewrite z.
rewrite /= (foldl_prod (fun v => mysign (- vd_U (get_vertex U (v_type v))))) sign_all ?(i_vo hi) ?(i_ready hi) //.
eexists; first by reflexivity.
set s2 := Sub _ _ _ _ _ _ _ _ _ _ _ _ _; split=> //=; rewrite ?(i_sign hi) //; last first.
  by move=> fl fll; have [_ h2] := q _ fll.
have e2 : ini s2 = su_v s by [].
split; rewrite ?e2 //; try (by case: hi); last by move=> _; apply: (i_ready hi).
move=> fl fll; have [h1 h2] := q _ fll; have hf := i_fl hi fll; have nil := fv_ready hf tr.
have eG : Gfl s2 fl = Gfl s fl by [].
have p0 : perm_eq (ia_rows (Afl s2 fl)) (vrows fl (su_v s)) by rewrite /Afl /= h2 -ei; apply: (fv_p0 hf).
split; rewrite ?eG ?e2 //.
- case: (fv_ga hf) => g1 g2 g3; split; rewrite ?nil //; by rewrite g1 nil.
- by rewrite nil crows0.
Qed.

Lemma recompute_throw s : su_trying s -> recompute_matrix ani G0 U x0 s = Throw.
Proof. by rewrite /recompute_matrix => ->. Qed.

Definition vdata (v : vtx) := (v_type v, v_af v, v_time v, v_non v).
Lemma wt_data (vs ws : seq vtx) : map vdata vs = map vdata ws -> wt vs = wt ws.
Proof.
move=> e.
have h : (forall fl, sp_ops U fl vs = sp_ops U fl ws) /\
   \prod_(v <- vs | ~~ v_non v) - vd_U (sp_def U v) = \prod_(v <- ws | ~~ v_non v) - vd_U (sp_def U v).
  elim: vs ws e => [|v vs IH] [|w ws] //= [e1 e2 e3 e4 /IH [i1 i2]]; rewrite !big_cons e4.
  have ed : sp_def U v = sp_def U w by rewrite /sp_def e1.
  split; last by rewrite i2 ed.
  move=> fl; rewrite /sp_ops /= e4; case: (v_non w) => /=; first exact: i1.
  congr (_ ++ _); last exact: i1.
  by rewrite /sp_term /sp_flavor ed e2 e3.
by case: h => h1 h2; rewrite /weight h2; congr (_ * _); apply: eq_bigr => fl _; rewrite h1.
Qed.

Lemma wt_nil : wt [::] = 1.
Proof.
rewrite /weight big_nil mulr1; apply: big1 => fl _.
by rewrite det_ofE /fdet /= det_mx00.
Qed.

Lemma new_ok jk : inv (sub_new Tm nf jk).
Proof.
have D1 : Dall [::] = 1 by apply: big1 => fl _; rewrite /SubRows.rdet /= det_ofE /fdet det_mx00.
split; rewrite /ini /= ?size_nseq ?wt_nil ?D1 ?mysign1 ?oner_neq0 //.
move=> fl fll; rewrite /ini /=; split=> //; rewrite /Afl /Gfl /= ?nth_nseq ?fll //.
Qed.

Definition number1 (vs : seq vtx) : seq vtx := [seq set_uid x.1 x.2 | x <- zip vs (iota 1 (size vs))].

Lemma number1_data vs : map vdata (number1 vs) = map vdata vs.
Proof.
rewrite /number1 -map_comp.
have -> : [seq (vdata \o (fun x : vtx * nat => set_uid x.1 x.2)) x | x <- zip vs (iota 1 (size vs))]
  = map vdata (unzip1 (zip vs (iota 1 (size vs)))) by rewrite -map_comp; apply: eq_map.
by rewrite unzip1_zip // size_iota.
Qed.

Lemma number1_uids vs : [seq v_uid v | v <- number1 vs] = iota 1 (size vs).
Proof.
rewrite /number1 -map_comp.
have -> : [seq (@v_uid Tm \o (fun x : vtx * nat => set_uid x.1 x.2)) x | x <- zip vs (iota 1 (size vs))]
  = unzip2 (zip vs (iota 1 (size vs))) by apply: eq_map.
by rewrite unzip2_zip // size_iota.
Qed.

Lemma from_ok jk vs0 : all (sp_vertex_ok U) vs0 -> all (fun v => ~~ v_non v) vs0 -> wt vs0 != 0 ->
  exists2 s, sub_from ani G0 U x0 nf jk vs0 = Ok s &
    [/\ inv s, ~~ su_trying s & map vdata (su_v s) = map vdata vs0].
Proof.
move=> ok int nz; rewrite /sub_from.
case: (altP (size vs0 =P 0%N)) => [z|ne].
  eexists; first by reflexivity.
  by split; [exact: new_ok | | rewrite (size0nil z)].
have tyo : all (fun v => v_type v < size U)%N vs0 by apply: sub_all ok => v /andP [].
rewrite types_ok_all //=.
have -> : all (fun v => v_non v || (v_af v < vd_naf (get_vertex U (v_type v)))%N) vs0.
  by apply: sub_all ok => v /andP [].
rewrite /= -/(number1 vs0); set vs := number1 vs0.
have dat : map vdata vs = map vdata vs0 by apply: number1_data.
have ok1 : all (sp_vertex_ok U) vs.
  rewrite -(all_map vdata (fun x => (x.1.1.1 < size U)%N && (x.2 || (x.1.1.2 < vd_naf (nth (vdef0 F) U x.1.1.1))%N))).
  by rewrite dat all_map.
have int1 : all (fun v => ~~ v_non v) vs by rewrite -(all_map vdata (fun x => ~~ x.2)) dat all_map.
have nz1 : wt vs != 0 by rewrite (wt_data dat).
have ty1 : all (fun v => v_type v < size U)%N vs by apply: sub_all ok1 => v /andP [].
set As := foldl _ _ _.
have hA fl : (fl < nf)%N -> size As = nf /\ nth A0 As fl = add_rows A0 (vrows fl vs).
  move=> fll; have [//|sz e] := push_all (As := nseq nf A0) (fl := fl)
    (alpha := fun v r => alpha_of ani (get_vertex U (v_type v)) (v_state v) r) ty1 (size_nseq _ _) fll.
  by rewrite sz e nth_nseq fll.
have sA : size As = nf.
  by apply: push_size ty1 _; rewrite size_nseq.
have [|As' -> [sz q]] := recompute_all sA ok1 int1 nz1.
  by move=> fl fll; have [_ ->] := hA _ fll.
rewrite /= (foldl_prod (fun v => mysign (- vd_U (get_vertex U (v_type v))))) mul1r.
rewrite [_ * _ / _]mulrAC sign_all // mysign2.
eexists; first by reflexivity.
set s := Sub _ _ _ _ _ _ _ _ _ _ _ _ _; split=> //.
have e2 : ini s = vs by [].
split; rewrite ?e2 //.
- by rewrite /= size_nseq.
- by rewrite /= number1_uids iota_uniq.
- rewrite /= -(all_map (@v_uid Tm) (fun k => k <= size vs0)%N) number1_uids.
  by apply/allP => k; rewrite mem_iota; lia.
- move=> fl fll; have [h1 h2] := q _ fll; have [_ e] := hA _ fll.
  have p0 : perm_eq (ia_rows (Afl s fl)) (vrows fl vs) by rewrite /Afl /= h2 e.
  have eG : Gfl s fl = g0 by rewrite /Gfl /= nth_nseq fll.
  by split; rewrite ?eG ?e2 // crows0.
Qed.

(* ---- the stored matrices between sessions ---- *)

Lemma inverse_uniq n (a b c : fmat F) : inverse_of n a b -> inverse_of n a c -> feq n n b c.
Proof.
move=> /inverse_ofP h1 /inverse_ofP h2; apply/mxofE.
by rewrite -[LHS]mul1mx -(mulmx1C h2) -mulmxA h1 mulmx1.
Qed.

Section Ready.
Variables (s : sub F Tm) (fl : nat).
Hypotheses (hi : inv s) (tr : ~~ su_trying s) (fll : (fl < nf)%N).
Let m := Afl s fl.
Let rs := ia_rows m.
Let l := map (@term F Tm) rs.

Lemma rd_perm : perm_eq rs (vrows fl (su_v s)).
Proof. by have := fv_p0 (i_fl hi fll); rewrite /ini (negbTE tr). Qed.

Lemma rd_int r : r \in rs -> ar_alpha r != ani.
Proof.
rewrite (perm_mem rd_perm) => /vrowsP [v [k [vi kl _ ->]]].
have := allP (i_vo hi) _ vi; rewrite vertex_okE => /andP [tv sv].
by rewrite vr_alpha (alp_ani tok) // /v_state (negbTE (allP (i_ready hi tr) _ vi)).
Qed.

Lemma rd_one r : r \in rs -> ar_alpha r != 1.
Proof.
move=> ri; have := allP (st_good (fv_st (i_fl hi fll))) _ ri.
by rewrite /good (negbTE (rd_int ri)) => /andP [].
Qed.

Lemma rd_ops : perm_eq l (sp_ops U fl (su_v s)).
Proof.
rewrite -(ints_vrows tok fl (i_vo hi)) /l; apply: perm_map.
have e : rs = ints ani rs by apply: esym; apply/all_filterP/allP => r; apply: rd_int.
rewrite e; exact: perm_filter rd_perm.
Qed.

Lemma rd_n : ia_n m = size l.
Proof. by rewrite size_map; apply: (st_n (fv_st (i_fl hi fll))). Qed.

Lemma rd_rf j : (j < size rs)%N -> rf ani x0 rs j = ar_alpha (nth (row0 F x0) rs j) / (ar_alpha (nth (row0 F x0) rs j) - 1).
Proof. by move=> jl; rewrite /rf /eval_f (negbTE (rd_int (mem_nth _ jl))). Qed.

Lemma rd_A : inverse_of (size l) (sp_A G0 x0 l) (ia_mat m).
Proof.
rewrite size_map; apply: inverse_of_ext (st_inv (fv_st (i_fl hi fll))); last exact: feq_refl.
move=> i j il jl; rewrite /sp_A /rA /amat -/m -/rs rd_rf // /rG !(nth_map (row0 F x0)) //=.
by rewrite addrC mulNr.
Qed.

Lemma rd_M : inverse_of (size l) (sp_mat G0 x0 l) (ia_compute_M ani x0 m).
Proof.
rewrite size_map; apply: (inverse_of_ext (feq_sym (@sp_mat_term _ _ G0 x0 rs)) (@feq_refl _ _ _ _)).
apply: (inv_gmina _ rd_rf (st_inv (fv_st (i_fl hi fll)))) => j jl.
by apply: rd_one; apply: mem_nth.
Qed.

Lemma rd_det : fdet (ia_n m) (ia_G0_alpha G0 x0 m) = wdet G0 x0 (sp_ops U fl (su_v s)).
Proof.
rewrite -(wdet_perm _ _ rd_ops) /wdet rd_n det_ofE; apply: fdet_ext; apply: feq_sym.
rewrite size_map; exact: sp_mat_term.
Qed.

Lemma rd_scratch : inverse_of (size l) (sp_mat G0 x0 l) (finv (ia_n m) (ia_G0_alpha G0 x0 m)).
Proof.
have e : feq (size l) (size l) (ia_G0_alpha G0 x0 m) (sp_mat G0 x0 l).
  by apply: feq_sym; rewrite size_map; apply: sp_mat_term.
rewrite rd_n; apply: (inverse_of_ext e (@feq_refl _ _ _ _)); apply: finv_inverse.
by rewrite det_ofE (fdet_ext e) -det_ofE; apply: inverse_of_unit rd_M.
Qed.

End Ready.

Lemma scratch_ok s : inv s -> ~~ su_trying s ->
  (compute_M_scratch G0 U x0 s).2 = wt (su_v s) /\
  (compute_M_scratch G0 U x0 s).1.2 = mysign (wt (su_v s)).
Proof.
move=> hi tr; rewrite /compute_M_scratch /=; set ds := map _ _; set us := map _ _.
have eU : \prod_(u <- us) u = \prod_(v <- su_v s | ~~ v_non v) - vd_U (sp_def U v).
  by rewrite big_map big_filter.
have eD : \prod_(d <- ds) d = wd G0 U x0 nf (su_v s).
  rewrite big_map big_filter big_mkcond (big_nth A0) (i_sA hi) big_mkord; apply: eq_bigr => fl _.
  rewrite -/(Afl s fl); case: ltnP => [_|z]; first exact: rd_det.
  have := rd_n hi (ltn_ord fl); rewrite -(wdet_perm _ _ (rd_ops hi tr (ltn_ord fl))) /wdet => <-.
  by move: z; rewrite leqn0 => /eqP ->; rewrite det_ofE /fdet det_mx00.
have e h : foldl (fun a u : F => a * h u) (foldl (fun a d => a * h d) 1 ds) us = (\prod_(d <- ds) h d) * \prod_(u <- us) h u.
  by rewrite (foldl_prod h) (foldl_prod h) mul1r.
rewrite (e id) (e (@mysign F)) !mysign_prod -mysignM eU eD; split=> //.
Qed.

End Proofs.
