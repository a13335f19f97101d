(* Property theorems: C18-C20, C56 (partitioned determinant matrix). *)
From mathcomp Require Import all_ssreflect ssralg ssrint rat fingroup perm matrix order.
From Verif Require Import Outcome MatLib MatSpec ClusterModel ClusterSpec DetMatModel DetMatSpec DetMatMain
  PartModel PartSpec PartSide PartMain Prop_DetMat.

Set Implicit Arguments.
Unset Strict Implicit.
Unset Printing Implicit Defensive.

Local Open Scope ring_scope.

(* ---- concrete operators used in the examples: times are the operators themselves, and
   two flavors that are not coupled: the creators of flavor 1 are those at times 2 and 6,
   the annihilators of flavor 1 those at times 1 and 7 ---- *)
Definition fcd0 (o : nat_eqType) : nat := (o \in [:: 2; 6]%N).
Definition fc0 (o : nat_eqType) : nat := (o \in [:: 1; 7]%N).
Definition gS (c cd : nat) : rat_fieldType := (fc0 c == fcd0 cd)%:R.
Definition alone (i j : nat) : bool := false.
Notation pdm0 := (pdm rat_fieldType T0 nat_eqType nat_eqType).
Notation newp ps := (@pdm_new_ops rat_fieldType _ T0 nat_eqType nat_eqType tm0 tm0 0%N 0%N fcd0 fc0 gS 2 alone ps).
Notation readyp := (@p_ready rat_fieldType _ T0 nat_eqType nat_eqType tm0 tm0 0%N 0%N fcd0 fc0 gS 2 alone).
Notation tryp u p := (@p_try rat_fieldType _ T0 nat_eqType nat_eqType tm0 tm0 0%N 0%N fcd0 fc0 gS
  (rem_cd u) (rem_c u) (add_cd u) (add_c u) p).
Notation rejectp p := (@p_reject rat_fieldType _ T0 nat_eqType nat_eqType tm0 tm0 0%N 0%N p).

Lemma alone_sym i j : (i < 2)%N -> (j < 2)%N -> alone i j = alone j i.
Proof. by []. Qed.
Lemma gS_respects : respects fcd0 fc0 gS alone.
Proof. by move=> c cd; rewrite /gS => /negbTE ->. Qed.

(* ------------------------------------------------------------------ C18 *)

(* However the object was reached from the empty one, its determinant is the one of the
   full matrix in time order (and its inverse matrix is the inverse, p_holds). *)
Theorem C18_determinant :
  forall (F : fieldType) (disp : unit) (T : orderType disp) (CD C : eqType)
         (tcd : CD -> T) (tc : C -> T) (cd0 : CD) (c0 : C) (fcd : CD -> nat) (fc : C -> nat)
         (gf : C -> CD -> F) (N : nat) (connected : nat -> nat -> bool),
    (forall i j, (i < N)%N -> (j < N)%N -> connected i j = connected j i) ->
    respects fcd fc gf connected ->
    exists p0, pdm_new F T CD C N connected = Ok p0 /\
      forall p x, p_history tcd tc cd0 c0 fcd fc gf p0 ([::], [::]) p x ->
        [/\ p_determinant p = weight tcd tc cd0 c0 gf x, p_size p = size x.1 &
            p_ready tcd tc cd0 c0 fcd fc gf N connected p x].
Proof.
move=> F disp T CD C tcd tc cd0 c0 fcd fc gf N connected cs re.
have [p0 [e rd]] := @p_new_ok F _ T CD C tcd tc cd0 c0 fcd fc gf N connected cs re.
exists p0; split=> // p x hi; have rd' := p_history_ok cs re rd hi.
by split=> //; [case: rd' => _ _ [] | exact: p_size_ok rd'].
Qed.
Print Assumptions C18_determinant.

(* Construction from a list of operators. *)
Theorem C18_construction :
  forall (F : fieldType) (disp : unit) (T : orderType disp) (CD C : eqType)
         (tcd : CD -> T) (tc : C -> T) (cd0 : CD) (c0 : C) (fcd : CD -> nat) (fc : C -> nat)
         (gf : C -> CD -> F) (N : nat) (connected : nat -> nat -> bool) (ps : seq (CD * C)),
    (forall i j, (i < N)%N -> (j < N)%N -> connected i j = connected j i) ->
    respects fcd fc gf connected ->
    known fcd fc N (unzip1 ps, unzip2 ps) -> distinct_times tcd tc (unzip1 ps, unzip2 ps) ->
    weight tcd tc cd0 c0 gf (unzip1 ps, unzip2 ps) != 0 ->
    exists p, pdm_new_ops tcd tc cd0 c0 fcd fc gf N connected ps = Ok p /\
      p_ready tcd tc cd0 c0 fcd fc gf N connected p (unzip1 ps, unzip2 ps).
Proof. by move=> F disp T CD C tcd tc cd0 c0 fcd fc gf N connected ps cs re; apply: p_new_ops_ok. Qed.
Print Assumptions C18_construction.

(* Rebuilding the blocks from scratch keeps everything. *)
Theorem C18_rebuild :
  forall (F : fieldType) (disp : unit) (T : orderType disp) (CD C : eqType)
         (tcd : CD -> T) (tc : C -> T) (cd0 : CD) (c0 : C) (fcd : CD -> nat) (fc : C -> nat)
         (gf : C -> CD -> F) (N : nat) (connected : nat -> nat -> bool) (p : pdm F T CD C) (x : conf CD C),
    (forall i j, (i < N)%N -> (j < N)%N -> connected i j = connected j i) ->
    respects fcd fc gf connected -> p_ready tcd tc cd0 c0 fcd fc gf N connected p x ->
    exists p2, p_rebuild cd0 c0 gf p = Ok p2 /\ p_ready tcd tc cd0 c0 fcd fc gf N connected p2 x.
Proof. by move=> F disp T CD C tcd tc cd0 c0 fcd fc gf N connected p x cs re; apply: p_rebuild_ok. Qed.
Print Assumptions C18_rebuild.

(* two sectors whose operators alternate in time: the sectors' determinants are 1, the
   full determinant is -1 *)
Lemma weightS : weight0 gS ([:: 0; 2]%N, [:: 1; 3]%N) = -1.
Proof. by rewrite [weight0 gS _]weight2 //; vm_compute. Qed.

Example C18_case : exists p : pdm0,
  [/\ newp [:: (0, 1); (2, 3)]%N = Ok p, readyp p ([:: 0; 2]%N, [:: 1; 3]%N), p_determinant p = -1 &
      num_sectors p = 2%N].
Proof.
have w : weight0 gS ([:: 0; 2]%N, [:: 1; 3]%N) != 0 by rewrite weightS.
have [p [e rd]] := @p_new_ops_ok rat_fieldType _ T0 _ _ tm0 tm0 0%N 0%N fcd0 fc0 gS 2 alone alone_sym gS_respects
  [:: (0, 1); (2, 3)]%N isT isT w.
exists p; have d : p_determinant p = -1 by rewrite -weightS; case: rd => _ _ [].
have n : num_sectors p = 2%N.
  have : obind (newp [:: (0, 1); (2, 3)]%N) (fun p => Ok (num_sectors p)) = Ok 2%N by vm_compute.
  by rewrite e => - [].
exact: And4 e rd d n.
Qed.

(* ------------------------------------------------------------------ C19 *)

(* The product of the signs returned by any sequence of insertions and removals is the
   change of the regrouping sign, and the sets hold the operators. *)
Theorem C19_signs :
  forall (F : fieldType) (disp : unit) (T : orderType disp) (O : eqType) (tm : O -> T) (sec : O -> nat)
         (ns : nat) (s : sets O) (l : seq O) (s2 : sets O) (l2 : seq O) (p : F),
    set_history tm sec ns s l s2 l2 p ->
    sets_hold sec ns s l -> uniq (map tm l) -> all (fun x => sec x < ns)%N l ->
    [/\ sets_hold sec ns s2 l2, uniq (map tm l2) &
        p * regroup_sign F tm sec ns l = regroup_sign F tm sec ns l2].
Proof. by move=> F disp T O tm sec ns s l s2 l2 p; apply: set_history_ok. Qed.
Print Assumptions C19_signs.

(* From the empty sets: insert 1 into sector 1, 3 into sector 0 and 2 into sector 1, then
   erase 2 again: the signs are 1, -1, -1, -1. *)
Definition sec0 (o : nat_eqType) : nat := nth 0%N [:: 0; 1; 1; 0]%N o.
Example C19_case : exists s : sets nat_eqType,
  set_history (F := rat_fieldType) (T := T0) tm0 sec0 2 (Sets [::] [:: [::]; [::]]) [::] s [:: 3; 1]%N (-1) /\
  regroup_sign rat_fieldType (T := T0) tm0 sec0 2 [:: 3; 1]%N = -1.
Proof.
eexists; split; last by vm_compute.
have -> : -1 = 1 * (-1 * (-1 * (-1 * 1))) :> rat_fieldType by vm_compute.
apply: (@sh_insert rat_fieldType _ T0 nat_eqType tm0 sec0 2 _ _ 1%N) => //.
apply: (@sh_insert rat_fieldType _ T0 nat_eqType tm0 sec0 2 _ _ 3%N) => //.
apply: (@sh_insert rat_fieldType _ T0 nat_eqType tm0 sec0 2 _ _ 2%N) => //.
apply: (@sh_erase rat_fieldType _ T0 nat_eqType tm0 sec0 2 _ _ 2%N) => //.
exact: sh_nil.
Qed.

(* ------------------------------------------------------------------ C20 *)

(* An admissible request that is rejected has no effect. *)
Theorem C20_reject_partial :
  forall (F : fieldType) (disp : unit) (T : orderType disp) (CD C : eqType)
         (tcd : CD -> T) (tc : C -> T) (cd0 : CD) (c0 : C) (fcd : CD -> nat) (fc : C -> nat)
         (gf : C -> CD -> F) (N : nat) (connected : nat -> nat -> bool)
         (p : pdm F T CD C) (x : conf CD C) (u : request CD C),
    (forall i j, (i < N)%N -> (j < N)%N -> connected i j = connected j i) ->
    respects fcd fc gf connected -> p_ready tcd tc cd0 c0 fcd fc gf N connected p x ->
    p_admissible tcd tc fcd fc p u x ->
    exists p1 r p2,
      [/\ p_try tcd tc cd0 c0 fcd fc gf (rem_cd u) (rem_c u) (add_cd u) (add_c u) p = Ok (p1, r),
          p_reject tcd tc cd0 c0 p1 = Ok p2 & p_ready tcd tc cd0 c0 fcd fc gf N connected p2 x].
Proof.
move=> F disp T CD C tcd tc cd0 c0 fcd fc gf N connected p x u cs re rd ad.
have [p1 [r [e1 [p2 [e2 h2]] _ _]]] := p_request_ok cs re rd ad.
by exists p1, r, p2.
Qed.
Print Assumptions C20_reject_partial.

(* remove the pair of sector 0 and add a creator only to sector 1 *)
Definition lopsided : request nat_eqType nat_eqType := req [:: 0]%N [:: 3]%N [:: 6]%N [::].
Example C20_case : exists p : pdm0,
  readyp p ([:: 0; 2]%N, [:: 1; 3]%N) /\ p_admissible (F := rat_fieldType) (T := T0) tm0 tm0 fcd0 fc0 p lopsided ([:: 0; 2]%N, [:: 1; 3]%N).
Proof.
have [p [e rd _ n]] := C18_case; exists p; split; first exact: rd.
have [[pf _ _ _] _ _] := rd.
have el : p_labels p = [:: 0; 1]%N.
  have : obind (newp [:: (0, 1); (2, 3)]%N) (fun p => Ok (p_labels p)) = Ok [:: 0; 1]%N by vm_compute.
  by rewrite e => - [].
split.
- by [].
- by move=> o; rewrite !inE => ->.
- by move=> o; rewrite !inE => ->; rewrite ?orbT.
- by split=> //; rewrite pf.
by rewrite -/(num_sectors p) n el => - [|[|s]] // _; [left | right].
Qed.

(* A request to add an operator at a time that is taken is reported impossible, but the
   reject that follows drops the operator that was there from the set of operators. *)
Definition onto0 : request nat_eqType nat_eqType := req [::] [::] [:: 0]%N [:: 5]%N.
Theorem C20_reject_collision_refuted :
  exists (p p1 p2 : pdm0) (x : conf nat_eqType nat_eqType) (u : request nat_eqType nat_eqType),
    [/\ newp [:: (0, 3)]%N = Ok p, readyp p x, tryp u p = Ok (p1, 0), rejectp p1 = Ok p2 &
        p_size p = 1%N /\ p_size p2 = 0%N].
Proof.
have w : weight0 gS ([:: 0]%N, [:: 3]%N) != 0.
  by rewrite /weight /det_of det_mx11 mxE.
have [p [e rd]] := @p_new_ops_ok rat_fieldType _ T0 _ _ tm0 tm0 0%N 0%N fcd0 fc0 gS 2 alone alone_sym gS_respects
  [:: (0, 3)]%N isT isT w.
have r : obind (newp [:: (0, 3)]%N) (fun p => obind (tryp onto0 p) (fun r =>
     obind (rejectp r.1) (fun p2 => Ok (r.2, p_size p, p_size p2)))) = Ok (0, 1%N, 0%N) by vm_compute.
move: r; rewrite e [X in X = _ -> _]/=.
case e1: (tryp onto0 p) => [[p1 r]| | |] //; rewrite [X in X = _ -> _]/=.
case e2: (rejectp p1) => [p2| | |] //; rewrite [X in X = _ -> _]/= => - [er s1 s2].
exists p, p1, p2, ([:: 0]%N, [:: 3]%N), onto0; rewrite er in e1.
exact: And5 erefl rd e1 e2 (conj s1 s2).
Qed.
Print Assumptions C20_reject_collision_refuted.

(* ------------------------------------------------------------------ C56 *)

(* The answer to a request: a nonzero ratio is the ratio of the full determinants, and
   accepting leads to the configuration asked for. *)
Theorem C56_accept :
  forall (F : fieldType) (disp : unit) (T : orderType disp) (CD C : eqType)
         (tcd : CD -> T) (tc : C -> T) (cd0 : CD) (c0 : C) (fcd : CD -> nat) (fc : C -> nat)
         (gf : C -> CD -> F) (N : nat) (connected : nat -> nat -> bool)
         (p p1 : pdm F T CD C) (r : F) (x : conf CD C) (u : request CD C),
    (forall i j, (i < N)%N -> (j < N)%N -> connected i j = connected j i) ->
    respects fcd fc gf connected -> p_ready tcd tc cd0 c0 fcd fc gf N connected p x ->
    p_admissible tcd tc fcd fc p u x ->
    p_try tcd tc cd0 c0 fcd fc gf (rem_cd u) (rem_c u) (add_cd u) (add_c u) p = Ok (p1, r) -> r != 0 ->
    weight tcd tc cd0 c0 gf (after u x) = r * weight tcd tc cd0 c0 gf x /\
    exists p3, p_perform tcd tc cd0 c0 p1 = Ok p3 /\
      p_ready tcd tc cd0 c0 fcd fc gf N connected p3 (after u x).
Proof.
move=> F disp T CD C tcd tc cd0 c0 fcd fc gf N connected p p1 r x u cs re rd ad et rn.
have [q1 [r' [e1 _ _ e4]]] := p_request_ok cs re rd ad.
by move: e1; rewrite et => - [ep er]; rewrite ep er in rn *; exact: e4.
Qed.
Print Assumptions C56_accept.

(* A zero ratio is exact as well, also for requests that leave some sector with different
   numbers of creation and annihilation operators. *)
Theorem C56_ratio :
  forall (F : fieldType) (disp : unit) (T : orderType disp) (CD C : eqType)
         (tcd : CD -> T) (tc : C -> T) (cd0 : CD) (c0 : C) (fcd : CD -> nat) (fc : C -> nat)
         (gf : C -> CD -> F) (N : nat) (connected : nat -> nat -> bool)
         (p : pdm F T CD C) (x : conf CD C) (u : request CD C),
    (forall i j, (i < N)%N -> (j < N)%N -> connected i j = connected j i) ->
    respects fcd fc gf connected -> p_ready tcd tc cd0 c0 fcd fc gf N connected p x ->
    p_admissible tcd tc fcd fc p u x -> no_singular_step tcd tc cd0 c0 fcd fc gf p u x ->
    size (after u x).1 = size (after u x).2 ->
    exists p1 r, p_try tcd tc cd0 c0 fcd fc gf (rem_cd u) (rem_c u) (add_cd u) (add_c u) p = Ok (p1, r) /\
      weight tcd tc cd0 c0 gf (after u x) = r * weight tcd tc cd0 c0 gf x.
Proof.
move=> F disp T CD C tcd tc cd0 c0 fcd fc gf N connected p x u cs re rd ad ns sz.
have [q1 [r' [e1 _ e3 _]]] := p_request_ok cs re rd ad.
by exists q1, r'; split=> //; exact: e3.
Qed.
Print Assumptions C56_ratio.

(* moving the creator of sector 0 behind everything else, and the pair of sector 1 away *)
Definition pairs2 : request nat_eqType nat_eqType := req [:: 0; 2]%N [:: 1]%N [:: 4]%N [::].
Example C56_case : exists (p p1 : pdm0) r,
  [/\ readyp p ([:: 0; 2]%N, [:: 1; 3]%N),
      p_admissible (F := rat_fieldType) (T := T0) tm0 tm0 fcd0 fc0 p pairs2 ([:: 0; 2]%N, [:: 1; 3]%N),
      tryp pairs2 p = Ok (p1, r) & r = -1].
Proof.
have [p [e rd _ n]] := C18_case.
have [[pf _ _ _] _ _] := rd.
have el : p_labels p = [:: 0; 1]%N.
  have : obind (newp [:: (0, 1); (2, 3)]%N) (fun p => Ok (p_labels p)) = Ok [:: 0; 1]%N by vm_compute.
  by rewrite e => - [].
have ad : p_admissible (F := rat_fieldType) (T := T0) tm0 tm0 fcd0 fc0 p pairs2 ([:: 0; 2]%N, [:: 1; 3]%N).
  split.
  - by [].
  - by [].
  - by move=> o; rewrite !inE => ->.
  - by split=> //; rewrite pf.
  by rewrite -/(num_sectors p) n el => - [|[|s]] // _; left.
have ns : no_singular_step (T := T0) tm0 tm0 0%N 0%N fcd0 fc0 gS p pairs2 ([:: 0; 2]%N, [:: 1; 3]%N).
  by rewrite /no_singular_step -/(num_sectors p) n el => - [|[|s]] // _; left.
have [p1 [r [e1 er]]] := C56_ratio alone_sym gS_respects rd ad ns erefl.
exists p, p1, r; apply: And4 rd ad e1 _.
have e4 : weight0 gS ([:: 4]%N, [:: 3]%N) = 1 by rewrite /weight /det_of det_mx11 mxE.
move: er; rewrite [weight0 gS (after _ _)]e4 [weight0 gS _]weightS GRing.mulrN1 => ->.
by rewrite GRing.opprK.
Qed.
