(* Property theorems: C83 (a run continued from a dumped configuration). *)
From Coq Require Import ZArith NArith.
From mathcomp Require Import all_ssreflect order ssralg ssrnum ssrint rat matrix algC zify.
From Verif Require Import Outcome MatLib MatSpec SubModel SubSpec SubProofs Prop_Sub.
From Verif Require Import UMatModel UMatSpec UMatProofs Prop_UMat.
From Verif Require Import GreenModel BinModel Prop_Bin LegendreModel DensModel DensSpec SlModel OrderModel MeasModel MeasSpec Prop_Meas.

Set Implicit Arguments.
Unset Strict Implicit.
Unset Printing Implicit Defensive.

Local Open Scope ring_scope.
Import Order.TTheory GRing.Theory Num.Theory.

(* The vertices of a walker between two updates are written to a file (dump) and read by a new
   program (load_config) that builds its walker from them; reading is reached by the parameter
   PREFIX_LOAD_CONFIG, the call of dump in finalize is a comment at this commit.  If the times survive printing, the new
   walker has the same vertices in the same order, the same sign, is a state of the same kind,
   and every measurement records the same values. *)
Theorem C83_restart_partial :
  forall (C : numClosedFieldType) (Dec : Type) (print : rat -> Dec) (parse : Dec -> rat) (ani : C)
         (G0 : sop rat_eqType -> sop rat_eqType -> C) (U : seq (vdef C)) (x0 : sop rat_eqType) (nf : nat)
         (tm0 : rat_eqType) (junk : fmat C) (j : C) (s : sub C rat_eqType),
    sp_types_ok U ani nf -> reach ani G0 U x0 nf tm0 junk s -> ~~ su_trying s ->
    all (fun v => parse (print (v_time v)) == v_time v) (su_v s) ->
    exists vs s', [/\ load_config parse U (dump print (su_v s)) = Ok vs,
      sub_from ani G0 U x0 nf j vs = Ok s',
      reach ani G0 U x0 nf tm0 junk s' /\ ~~ su_trying s',
      same_vertices (su_v s') (su_v s) /\ su_sign s' = su_sign s &
      forall (cplx : bool) (g0 : rat -> nat -> nat -> nat -> C) (beta : rat) (n_site n_bin : nat) (shifts : seq rat) (tau : rat), sites_ok U n_site ->
        0 < beta -> (0 < n_bin)%N -> is_int32 n_bin -> times_ok beta (su_v s) -> all (fun t => 0 <= t < beta) shifts ->
        exists o o', [/\ measure_observables cplx ani U x0 g0 beta n_site n_bin nf shifts tau s = Ok o,
          measure_observables cplx ani U x0 g0 beta n_site n_bin nf shifts tau s' = Ok o',
          ss_sign (ob_stau o) = ss_sign (ob_stau o') /\
          (forall z s1 s2, (z < nf)%N -> (s2 < n_site)%N ->
             ss_real (ob_stau o) z s1 s2 = ss_real (ob_stau o') z s1 s2 /\
             ss_imag (ob_stau o) z s1 s2 = ss_imag (ob_stau o') z s1 s2),
          ob_dens o = ob_dens o' & ob_order o = ob_order o' /\ ob_vertex o = ob_vertex o']].
Proof.
move=> C Dec print parse ani G0 U x0 nf tm0 junk j s tok re tr pp.
have hi := reach_inv tok re; have ok := i_vo hi; have it := i_ready hi tr.
pose vs : seq (vertex rat_eqType) := [seq (v_type v, v_af v, parse (print (v_time v)), false, 0%N) | v <- su_v s].
have e1 : load_config parse U (dump print (su_v s)) = Ok vs.
  by apply: load_dump; apply: sub_all ok => v /andP[].
have sv : same_vertices vs (su_v s).
  rewrite /same_vertices /vs -map_comp; apply/eq_in_map => v vi /=.
  rewrite (eqP (allP pp v vi)); move: (allP it v vi); clear.
  by case: v => [[[[a b] c] d] k]; rewrite /v_non /=; case: d.
have okv : all (sp_vertex_ok U) vs.
  rewrite all_map; apply/allP => v vi; have := allP ok v vi; rewrite /= /sp_vertex_ok (negbTE (allP it v vi)).
  by case: v vi => [[[[a b] c] d] k].
have itv : all (fun v => ~~ v_non v) vs by rewrite all_map; apply/allP.
have pv : perm_eq [seq v.1 | v <- su_v s] [seq v.1 | v <- vs] by rewrite sv.
have wE := weight_same G0 U x0 nf pv.
have [|s' e2 [re' tr' sv' sg']] := @C58_construct C rat_eqType ani G0 U x0 nf tm0 junk j vs tok okv itv.
  by rewrite -wE; exact: i_w hi.
have sv2 : same_vertices (su_v s') (su_v s) by rewrite /same_vertices sv'.
exists vs, s'; split=> //.
  by split=> //; have [_ ->] := C57_running_sign tok re; rewrite sg' -wE.
move=> cplx g0 beta n_site n_bin shifts tau so b0 n0 n31 ti hs.
apply: (@C74_same_vertices C cplx ani G0 U x0 nf tm0 tm0 junk junk s s') => //.
by rewrite sv2.
Qed.
Print Assumptions C83_restart_partial.

(* Six digits move a time that lies below beta = 1 to beta itself: the configuration that is read
   has a vertex outside [0, beta). *)
Theorem C83_beta_refuted :
  forall (F : numFieldType) (U : seq (vdef F)) (parse : BinNums.N * BinNums.Z -> dbl) (one : dbl), (0 < size U)%N ->
    one = (1%num, 0%num) -> parse (print6 one) = one ->
    exists t : dbl, BinNat.N.lt (fst t) (BinNat.N.pow 2 (snd t)) /\
      load_config (Tm := [eqType of dbl]) parse U
        (dump (Tm := [eqType of dbl]) print6 [:: (0%N, 0%N, t, false, 1%N)]) = Ok [:: (0%N, 0%N, one, false, 0%N)].
Proof.
move=> F U parse one hU -> h; exists (16777215%num, 24%num); split; first by vm_compute.
rewrite load_dump /=; last by rewrite hU.
have -> : print6 (16777215%num, 24%num) = print6 (1%num, 0%num) by vm_compute.
by rewrite h.
Qed.
Print Assumptions C83_beta_refuted.

(* the walker of C74 with two vertices; its times are printed as numerator and denominator *)
Section Cases.
Variable C : numClosedFieldType.
Let UM : seq (vdef C) := [:: VDef 1 [:: 0%N] [:: 0%N; 0%N] 1 1 (fun _ _ => 3%:R)].
Let G1 (x y : sop rat_eqType) : C := 1.
Let xM : sop rat_eqType := (0%N, 0%N, 0, 0).
Let aniM : C := 7%:R.
Let t1 : rat := 1 / 4%:R.
Let t2 : rat := 3%:R / 4%:R.

Example C83_case (j : C) (junk : fmat C) : exists s : sub C rat_eqType,
  [/\ reach aniM G1 UM xM 1 0 junk s, ~~ su_trying s, [seq v.1 | v <- su_v s] = [:: (0%N, 0%N, t1, false); (0%N, 0%N, t2, false)] &
    exists vs s', load_config (fun d : int * int => d.1%:~R / d.2%:~R) UM (dump (fun t : rat => (numq t, denq t)) (su_v s)) = Ok vs /\
      sub_from aniM G1 UM xM 1 j vs = Ok s' /\ [seq v.1 | v <- su_v s'] = [seq v.1 | v <- su_v s]].
Proof.
pose vM (t : rat) : vertex rat_eqType := (0%N, 0%N, t, false, 0%N).
have w : weight G1 UM xM 1 [:: vM t1; vM t2] != 0 by rewrite (@weightM C) pnatr_eq0.
have [//|//|s _ [re tr sv _]] := @C58_construct C rat_eqType aniM G1 UM xM 1 0 junk j [:: vM t1; vM t2] (@tokM C) _ _ w.
exists s; split=> //.
have [|vs [s' [e1 e2 _ [e3 _] _]]] := @C83_restart_partial C (int * int) (fun t => (numq t, denq t)) (fun d => d.1%:~R / d.2%:~R)
    aniM G1 UM xM 1 0 junk j s (@tokM C) re tr.
  by apply/allP => v _; rewrite /= divq_num_den.
by exists vs, s'.
Qed.

End Cases.
