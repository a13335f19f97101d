(* Property theorems: C13-C17, C55 (determinant matrix). *)
From mathcomp Require Import all_ssreflect ssralg ssrint rat fingroup perm matrix order.
From Verif Require Import Outcome MatLib MatSpec FormulaModel FormulaProofs RmatProofs DetMatModel DetMatSpec
  DetMatMain DetMatProtocol.

Set Implicit Arguments.
Unset Strict Implicit.
Unset Printing Implicit Defensive.

Local Open Scope ring_scope.

(* ---- concrete operators used in the examples: creators at even, annihilators at odd
   times ---- *)
Definition T0 := [orderType of nat].
Definition tm0 (n : nat) : T0 := n.
(* each annihilator is coupled to the creator just before it *)
Definition gI (c cd : nat) : rat_fieldType := (c == cd.+1)%:R.
(* the pair (0, 1) is not coupled, both are coupled to everything else *)
Definition gX (c cd : nat) : rat_fieldType := ((c == 1%N) != (cd == 0%N))%:R.
Notation weight0 g := (@weight rat_fieldType _ T0 nat_eqType nat_eqType tm0 tm0 0%N 0%N g).
Notation holds0 g := (@holds rat_fieldType _ T0 nat_eqType nat_eqType tm0 tm0 0%N 0%N g).
Notation try0 g u d := (@try_update rat_fieldType _ T0 nat_eqType nat_eqType tm0 tm0 0%N 0%N g
  (rem_cd u) (rem_c u) (add_cd u) (add_c u) d).
Notation perform0 d := (@perform_update rat_fieldType _ T0 nat_eqType nat_eqType tm0 tm0 0%N 0%N d).
Notation reject0 d := (@reject_update rat_fieldType _ T0 nat_eqType nat_eqType tm0 tm0 0%N 0%N d).
Notation new0 g ps := (@dm_new_ops rat_fieldType _ T0 nat_eqType nat_eqType tm0 tm0 0%N 0%N g ps).
Definition req (a b c d : seq nat) : request nat_eqType nat_eqType := Req a b c d.
Notation dm0 := (dm rat_fieldType T0 nat_eqType nat_eqType).

Lemma det2 (F : fieldType) (a : nat -> nat -> F) :
  det_of 2 a = a 0%N 0%N * a 1%N 1%N - a 0%N 1%N * a 1%N 0%N.
Proof.
rewrite /det_of (expand_det_row _ ord0) !big_ord_recl big_ord0 /cofactor !det_mx11 !mxE /=.
by rewrite GRing.addr0 GRing.expr0 GRing.mul1r GRing.expr1 GRing.mulN1r GRing.mulrN.
Qed.

Lemma weight2 g (a b a' b' : nat) : (a < b)%N -> (a' < b')%N ->
  weight0 g ([:: a; b], [:: a'; b']) = g a' a * g b' b - g a' b * g b' a.
Proof.
move=> ab ab'.
rewrite /weight /in_time_order /sort /= /tm0 !Order.NatOrder.leEnat (ltnW ab) (ltnW ab') /=.
exact: det2.
Qed.

(* ------------------------------------------------------------------ C13 *)

(* The ratio returned by a possible try, unless operator pairs are both removed and added
   and the block of the operators that stay is singular. *)
Theorem C13_ratio_partial :
  forall (F : fieldType) (disp : unit) (T : orderType disp) (CD C : eqType)
         (tcd : CD -> T) (tc : C -> T) (cd0 : CD) (c0 : C) (gf : C -> CD -> F)
         (d : dm F T CD C) (x : conf CD C) (u : request CD C),
    holds tcd tc cd0 c0 gf d x -> admissible tcd tc u x ->
    ~~ mixed u \/ weight tcd tc cd0 c0 gf (kept u x) != 0 ->
    exists d1, try_update tcd tc cd0 c0 gf (rem_cd u) (rem_c u) (add_cd u) (add_c u) d =
      DOk d1 (weight tcd tc cd0 c0 gf (after u x) / weight tcd tc cd0 c0 gf x).
Proof.
move=> F disp T CD C tcd tc cd0 c0 gf d x u h adm m.
have [d1 [r [e _ ex _]]] := request_ok h adm; exists d1; rewrite e; congr DOk.
by rewrite (ex m) GRing.mulfK // (holds_neq0 h).
Qed.
Print Assumptions C13_ratio_partial.

(* Whatever the request, a ratio that is not zero is the right one. *)
Theorem C13_nonzero_ratio_partial :
  forall (F : fieldType) (disp : unit) (T : orderType disp) (CD C : eqType)
         (tcd : CD -> T) (tc : C -> T) (cd0 : CD) (c0 : C) (gf : C -> CD -> F)
         (d : dm F T CD C) (x : conf CD C) (u : request CD C),
    holds tcd tc cd0 c0 gf d x -> admissible tcd tc u x ->
    exists d1 r, try_update tcd tc cd0 c0 gf (rem_cd u) (rem_c u) (add_cd u) (add_c u) d = DOk d1 r /\
      (r != 0 -> r = weight tcd tc cd0 c0 gf (after u x) / weight tcd tc cd0 c0 gf x).
Proof.
move=> F disp T CD C tcd tc cd0 c0 gf d x u h adm.
have [d1 [r [e _ _ hp]]] := request_ok h adm; exists d1, r; split=> // rnz.
by have [-> _] := hp rnz; rewrite GRing.mulfK // (holds_neq0 h).
Qed.
Print Assumptions C13_nonzero_ratio_partial.

Example C13_state : exists d, holds0 gX d ([:: 0; 2]%N, [:: 1; 3]%N).
Proof.
have w : weight0 gX ([:: 0; 2]%N, [:: 1; 3]%N) != 0 by rewrite weight2.
by have [d [_ h]] := @construct_ok rat_fieldType _ T0 _ _ tm0 tm0 0%N 0%N gX [:: (0, 1); (2, 3)]%N isT isT w; exists d.
Qed.

Example C13_case : exists (d d1 : dm0),
  holds0 gX d ([:: 0; 2]%N, [:: 1; 3]%N) /\
  admissible tm0 tm0 (req [:: 2]%N [::] [:: 4]%N [::]) ([:: 0; 2]%N, [:: 1; 3]%N) /\
  try0 gX (req [:: 2]%N [::] [:: 4]%N [::]) d = DOk d1 1.
Proof.
have [d h] := C13_state.
have adm : admissible tm0 tm0 (req [:: 2]%N [::] [:: 4]%N [::]) ([:: 0; 2]%N, [:: 1; 3]%N).
  by split=> // o; rewrite !inE => ->; rewrite orbT.
have [d1 e] := C13_ratio_partial h adm (or_introl isT).
exists d, d1; split=> //; split=> //; rewrite e.
by congr DOk; rewrite /after /= !weight2.
Qed.

(* Operators 2 and 3 are replaced by 4 and 5: both determinants are -1, the ratio 1, but
   try returns 0 because the pair (0, 1) that stays is not coupled. *)
Theorem C13_ratio_refuted :
  exists (d d1 : dm0) (x : conf nat_eqType nat_eqType) (u : request nat_eqType nat_eqType),
    [/\ holds0 gX d x, admissible tm0 tm0 u x, try0 gX u d = DOk d1 0 &
        weight0 gX (after u x) / weight0 gX x = 1].
Proof.
have [d h] := C13_state.
set x := ([:: 0; 2]%N, [:: 1; 3]%N) in h.
pose u := req [:: 2]%N [:: 3]%N [:: 4]%N [:: 5]%N.
have adm : admissible tm0 tm0 u x by split=> // o; rewrite !inE => ->; rewrite orbT.
have k0 : weight0 gX (kept u x) = 0 by rewrite /weight /det_of det_mx11 mxE.
have [d1 e] := mixed_zero h adm isT isT k0.
by exists d, d1, x, u; split=> //; rewrite /after /= !weight2.
Qed.
Print Assumptions C13_ratio_refuted.

(* ------------------------------------------------------------------ C14 *)

(* Along every history of cycles of admissible requests the object stays consistent. *)
Theorem C14_history_consistent :
  forall (F : fieldType) (disp : unit) (T : orderType disp) (CD C : eqType)
         (tcd : CD -> T) (tc : C -> T) (cd0 : CD) (c0 : C) (gf : C -> CD -> F)
         (d d2 : dm F T CD C) (x x2 : conf CD C),
    holds tcd tc cd0 c0 gf d x -> history tcd tc cd0 c0 gf d x d2 x2 ->
    holds tcd tc cd0 c0 gf d2 x2.
Proof. by move=> F disp T CD C tcd tc cd0 c0 gf d d2 x x2 h hi; exact: history_ok hi h. Qed.
Print Assumptions C14_history_consistent.

(* No cycle of an admissible request fails: a reject always succeeds and so does a perform
   when the ratio is not zero. *)
Theorem C14_cycles_succeed :
  forall (F : fieldType) (disp : unit) (T : orderType disp) (CD C : eqType)
         (tcd : CD -> T) (tc : C -> T) (cd0 : CD) (c0 : C) (gf : C -> CD -> F)
         (d : dm F T CD C) (x : conf CD C) (u : request CD C) (accept : bool),
    holds tcd tc cd0 c0 gf d x -> admissible tcd tc u x ->
    exists r, (~~ mixed u \/ weight tcd tc cd0 c0 gf (kept u x) != 0 ->
        weight tcd tc cd0 c0 gf (after u x) = r * weight tcd tc cd0 c0 gf x) /\
      ((accept -> r != 0) -> exists d1, cycle tcd tc cd0 c0 gf u accept d = DOk d1 r).
Proof.
move=> F disp T CD C tcd tc cd0 c0 gf d x u accept h adm.
have [r [e hc]] := cycle_total accept h adm; exists r; split=> // a.
by have [d1 [e1 _]] := hc a; exists d1.
Qed.
Print Assumptions C14_cycles_succeed.

(* The starting points: the default constructed object, construction from a list of
   operators; recomputing the inverse changes nothing. *)
Theorem C14_new :
  forall (F : fieldType) (disp : unit) (T : orderType disp) (CD C : eqType)
         (tcd : CD -> T) (tc : C -> T) (cd0 : CD) (c0 : C) (gf : C -> CD -> F),
    holds tcd tc cd0 c0 gf (dm_new F T CD C) ([::], [::]).
Proof. exact: new_ok. Qed.
Print Assumptions C14_new.

Theorem C14_construct :
  forall (F : fieldType) (disp : unit) (T : orderType disp) (CD C : eqType)
         (tcd : CD -> T) (tc : C -> T) (cd0 : CD) (c0 : C) (gf : C -> CD -> F)
         (ps : seq (CD * C)),
    ps <> [::] -> distinct_times tcd tc (unzip1 ps, unzip2 ps) ->
    weight tcd tc cd0 c0 gf (unzip1 ps, unzip2 ps) != 0 ->
    exists d, dm_new_ops tcd tc cd0 c0 gf ps = DOk d tt /\
              holds tcd tc cd0 c0 gf d (unzip1 ps, unzip2 ps).
Proof. by move=> F disp T CD C tcd tc cd0 c0 gf [//|p ps] _; apply: construct_ok. Qed.
Print Assumptions C14_construct.

Theorem C14_rebuild :
  forall (F : fieldType) (disp : unit) (T : orderType disp) (CD C : eqType)
         (tcd : CD -> T) (tc : C -> T) (cd0 : CD) (c0 : C) (gf : C -> CD -> F)
         (d : dm F T CD C) (x : conf CD C),
    holds tcd tc cd0 c0 gf d x ->
    exists d1, rebuild_inverse_matrix cd0 c0 gf d = DOk d1 tt /\ holds tcd tc cd0 c0 gf d1 x.
Proof. by move=> F disp T CD C tcd tc cd0 c0 gf d x; apply: rebuild_ok. Qed.
Print Assumptions C14_rebuild.

Lemma weightI2 : weight0 gI ([:: 0; 2]%N, [:: 1; 3]%N) = 1.
Proof. by rewrite weight2. Qed.
Lemma weightI1 a : weight0 gI ([:: a], [:: a.+1]) = 1.
Proof. by rewrite /weight /det_of det_mx11 mxE /gI /= eqxx. Qed.

(* Two pairs are added to the empty object, an addition is rejected and one pair is
   removed. *)
Example C14_case : exists d,
  history tm0 tm0 0%N 0%N gI (dm_new rat_fieldType T0 nat_eqType nat_eqType) ([::], [::])
    d ([:: 2]%N, [:: 3]%N) /\ holds0 gI d ([:: 2]%N, [:: 3]%N).
Proof.
have h0 : holds0 gI (dm_new rat_fieldType T0 nat_eqType nat_eqType) ([::], [::]) by exact: new_ok.
pose u1 := req [::] [::] [:: 0; 2]%N [:: 1; 3]%N.
have a1 : admissible tm0 tm0 u1 ([::], [::]) by [].
have [r1 [e1 c1]] := cycle_total true h0 a1.
have n1 : r1 != 0.
  by have := e1 (or_introl isT); rewrite weight_nil GRing.mulr1 => <-; rewrite weightI2.
have [d1 [k1 h1]] := c1 (fun _ => n1); rewrite /= in h1.
pose u2 := req [::] [::] [:: 4]%N [:: 5]%N.
have a2 : admissible tm0 tm0 u2 (after u1 ([::], [::])) by [].
have [r2 [_ c2]] := cycle_total false h1 a2.
have [d2 [k2 h2]] := c2 (fun x => False_ind _ (notF x)); rewrite /= in h2.
pose u3 := req [:: 0]%N [:: 1]%N [::] [::].
have a3 : admissible tm0 tm0 u3 (after u1 ([::], [::])).
  by split=> // o; rewrite !inE => ->.
have [r3 [e3 c3]] := cycle_total true h2 a3.
have n3 : r3 != 0.
  have := e3 (or_introl isT); rewrite [weight0 gI (after u1 _)]weightI2 GRing.mulr1 => <-.
  by rewrite [weight0 gI _](weightI1 2).
have [d3 [k3 h3]] := c3 (fun _ => n3); rewrite /= in h3.
exists d3; split=> //.
apply: (history_cons a1 k1 (fun _ => n1)).
apply: (history_cons a2 k2) => //.
apply: (history_cons a3 k3 (fun _ => n3)).
exact: history_nil.
Qed.

(* ------------------------------------------------------------------ C15 *)

(* After try and reject of an admissible request the object holds the operators it held
   before, with the same determinant and the same inverse between any two operators. *)
Theorem C15_reject_no_effect :
  forall (F : fieldType) (disp : unit) (T : orderType disp) (CD C : eqType)
         (tcd : CD -> T) (tc : C -> T) (cd0 : CD) (c0 : C) (gf : C -> CD -> F)
         (d : dm F T CD C) (x : conf CD C) (u : request CD C),
    holds tcd tc cd0 c0 gf d x -> admissible tcd tc u x ->
    exists d1 r d2,
      [/\ try_update tcd tc cd0 c0 gf (rem_cd u) (rem_c u) (add_cd u) (add_c u) d = DOk d1 r,
          reject_update tcd tc cd0 c0 d1 = DOk d2 tt,
          holds tcd tc cd0 c0 gf d2 x,
          compute_determinant d2 = compute_determinant d &
          forall a b, a \in x.1 -> b \in x.2 ->
            inverse_between d2 a b = inverse_between d a b].
Proof.
move=> F disp T CD C tcd tc cd0 c0 gf d x u h adm.
have [d1 [r [e [d2 [er h2]] _ _]]] := request_ok h adm; exists d1, r, d2; split=> //.
  by case: (h) => _ _ _ _ ->; case: h2.
by move=> a b ax bx; apply: inverse_between_ok h2 h ax bx.
Qed.
Print Assumptions C15_reject_no_effect.

Example C15_case : exists (d d1 d2 : dm0) r,
  [/\ holds0 gX d ([:: 0; 2]%N, [:: 1; 3]%N),
      try0 gX (req [:: 0]%N [:: 3]%N [::] [::]) d = DOk d1 r, reject0 d1 = DOk d2 tt &
      inverse_between d2 0%N 1%N = inverse_between d 0%N 1%N].
Proof.
have [d h] := C13_state.
have adm : admissible tm0 tm0 (req [:: 0]%N [:: 3]%N [::] [::]) ([:: 0; 2]%N, [:: 1; 3]%N).
  by split=> // o; rewrite !inE => ->; rewrite ?orbT.
have [d1 [r [d2 [e er _ _ iv]]]] := C15_reject_no_effect h adm.
by exists d, d1, d2, r; split=> //; apply: iv.
Qed.

(* ------------------------------------------------------------------ C16 *)

(* Adding operators at times that are taken: ratio zero, and reject has no effect. *)
Theorem C16_impossible_add_partial :
  forall (F : fieldType) (disp : unit) (T : orderType disp) (CD C : eqType)
         (tcd : CD -> T) (tc : C -> T) (cd0 : CD) (c0 : C) (gf : C -> CD -> F)
         (d : dm F T CD C) (x : conf CD C) (acd : seq CD) (ac : seq C),
    holds tcd tc cd0 c0 gf d x -> size acd = size ac -> (0 < size acd)%N ->
    ~~ distinct_times tcd tc (x.1 ++ acd, x.2 ++ ac) ->
    exists d1 d2, [/\ try_update tcd tc cd0 c0 gf [::] [::] acd ac d = DOk d1 0,
      reject_update tcd tc cd0 c0 d1 = DOk d2 tt & holds tcd tc cd0 c0 gf d2 x].
Proof. by move=> F disp T CD C tcd tc cd0 c0 gf d x acd ac; apply: impossible_add_ok. Qed.
Print Assumptions C16_impossible_add_partial.

Example C16_case : exists (d d1 d2 : dm0),
  [/\ holds0 gX d ([:: 0; 2]%N, [:: 1; 3]%N), try0 gX (req [::] [::] [:: 4]%N [:: 2]%N) d = DOk d1 0 &
      reject0 d1 = DOk d2 tt].
Proof.
have [d h] := C13_state; have [d1 [d2 [e1 e2 _]]] := @C16_impossible_add_partial _ _ _ _ _ tm0 tm0 0%N 0%N gX d _ [:: 4]%N [:: 2]%N h erefl isT isT.
by exists d, d1, d2.
Qed.

(* After the pair (2, 3) has been removed the object holds (0, 1).  A request to remove
   the pair (0, 1) twice is reported impossible, but the reject that follows puts the
   pair (2, 3) back. *)
Definition step1 : dres rat_fieldType T0 nat_eqType nat_eqType rat :=
  match new0 gI [:: (0, 1); (2, 3)]%N with
  | DOk d _ => cycle tm0 tm0 0%N 0%N gI (req [:: 2]%N [:: 3]%N [::] [::]) true d
  | _ => DUB
  end.

(* the ratio of a request and the operators after rejecting it *)
Definition run_reject (A : Type) (u : request nat_eqType nat_eqType)
    (s : dres rat_fieldType T0 nat_eqType nat_eqType A) : option (rat * seq nat * seq nat) :=
  match s with
  | DOk d _ =>
    match try0 gI u d with
    | DOk d1 r => match reject0 d1 with
      | DOk d2 _ => Some (r, ops (cds (co d2)), ops (ans (co d2)))
      | _ => None end
    | _ => None end
  | _ => None end.

Lemma run_rejectP A u d a r o1 o2 : @run_reject A u (DOk d a) = Some (r, o1, o2) ->
  exists d1 d2, [/\ try0 gI u d = DOk d1 r, reject0 d1 = DOk d2 tt, ops (cds (co d2)) = o1 &
    ops (ans (co d2)) = o2].
Proof.
rewrite /run_reject; case: (try0 gI u d) => // d1 r' ; case e : (reject0 d1) => [d2 []||] // [<- <- <-].
by exists d1, d2.
Qed.

Definition twice : request nat_eqType nat_eqType := req [:: 0; 0]%N [:: 1; 1]%N [::] [::].

Lemma run_twice : run_reject twice step1 = Some (0, [:: 0; 2]%N, [:: 1; 3]%N).
Proof. by vm_compute. Qed.

Theorem C16_impossible_removal_refuted :
  exists (d0 d d1 d2 : dm0) (x0 x : conf nat_eqType nat_eqType) (u : request nat_eqType nat_eqType),
    [/\ new0 gI [:: (0, 1); (2, 3)]%N = DOk d0 tt /\ history tm0 tm0 0%N 0%N gI d0 x0 d x,
        holds0 gI d x, try0 gI u d = DOk d1 0, reject0 d1 = DOk d2 tt &
        ~~ perm_eq (ops (cds (co d2))) x.1 /\ ~~ perm_eq (ops (ans (co d2))) x.2].
Proof.
have w : weight0 gI ([:: 0; 2]%N, [:: 1; 3]%N) != 0 by rewrite weightI2.
have [d0 [e0 h0]] := @construct_ok rat_fieldType _ T0 _ _ tm0 tm0 0%N 0%N gI [:: (0, 1); (2, 3)]%N isT isT w.
pose u1 := req [:: 2]%N [:: 3]%N [::] [::].
have a1 : admissible tm0 tm0 u1 ([:: 0; 2]%N, [:: 1; 3]%N).
  by split=> // o; rewrite !inE => ->; rewrite ?orbT.
have [r1 [e1 c1]] := cycle_total true h0 a1.
have n1 : r1 != 0.
  have := e1 (or_introl isT); rewrite [weight0 gI (_, _)]weightI2 GRing.mulr1 => <-.
  by rewrite [weight0 gI _](weightI1 0).
have [d [k1 h]] := c1 (fun _ => n1); rewrite /= in h.
have s1 : step1 = DOk d r1 by rewrite /step1 e0 k1.
have rt := run_twice; rewrite s1 in rt; have [d1 [d2 [et er o1 o2]]] := run_rejectP rt.
exists d0, d, d1, d2, ([:: 0; 2]%N, [:: 1; 3]%N), ([:: 0]%N, [:: 1]%N), twice.
have p1 : ~~ perm_eq [:: 0; 2]%N [:: 0]%N by [].
have p2 : ~~ perm_eq [:: 1; 3]%N [:: 1]%N by [].
have hi : history tm0 tm0 0%N 0%N gI d0 ([:: 0; 2]%N, [:: 1; 3]%N) d ([:: 0]%N, [:: 1]%N).
  by apply: (history_cons a1 k1 (fun _ => n1)); exact: history_nil.
rewrite -o1 in p1; rewrite -o2 in p2.
exact: And5 (conj e0 hi) h et er (conj p1 p2).
Qed.
Print Assumptions C16_impossible_removal_refuted.

(* On an object that has never completed a remove-and-add, rejecting an impossible one
   reads a member that was never assigned. *)
(* the ratio of a request when rejecting it is UB *)
Definition run_reject_UB (A : Type) (u : request nat_eqType nat_eqType)
    (s : dres rat_fieldType T0 nat_eqType nat_eqType A) : option rat :=
  match s with
  | DOk d _ => match try0 gI u d with
    | DOk d1 r => match reject0 d1 with DUB => Some r | _ => None end
    | _ => None end
  | _ => None end.

Definition onto2 : request nat_eqType nat_eqType := req [:: 0]%N [:: 1]%N [:: 2]%N [:: 5]%N.

Lemma run_onto2 : run_reject_UB onto2 (new0 gI [:: (0, 1); (2, 3)]%N) = Some 0.
Proof. by vm_compute. Qed.

Theorem C16_impossible_mixed_refuted :
  exists (d d1 : dm0) (x : conf nat_eqType nat_eqType) (u : request nat_eqType nat_eqType),
    [/\ new0 gI [:: (0, 1); (2, 3)]%N = DOk d tt, holds0 gI d x, try0 gI u d = DOk d1 0 &
        reject0 d1 = DUB].
Proof.
have w : weight0 gI ([:: 0; 2]%N, [:: 1; 3]%N) != 0 by rewrite weightI2.
have [d [e0 h0]] := @construct_ok rat_fieldType _ T0 _ _ tm0 tm0 0%N 0%N gI [:: (0, 1); (2, 3)]%N isT isT w.
have := run_onto2; rewrite e0 /run_reject_UB.
case et : (try0 gI onto2 d) => [d1 r||] //; case er : (reject0 d1) => [d2 ?||] // [r0].
rewrite r0 in et; exists d, d1, ([:: 0; 2]%N, [:: 1; 3]%N), onto2.
exact: And4 erefl h0 et er.
Qed.
Print Assumptions C16_impossible_mixed_refuted.

(* ------------------------------------------------------------------ C17 *)

(* A non-empty request while an update is pending is refused without touching the stored
   operators or the inverse. *)
Theorem C17_busy_try_partial :
  forall (F : fieldType) (disp : unit) (T : orderType disp) (CD C : eqType)
         (tcd : CD -> T) (tc : C -> T) (cd0 : CD) (c0 : C) (gf : C -> CD -> F)
         (d : dm F T CD C) (u : request CD C),
    st d <> waiting -> shape u -> nonempty u ->
    exists d1, [/\ try_update tcd tc cd0 c0 gf (rem_cd u) (rem_c u) (add_cd u) (add_c u) d = DThrow d1,
      co d1 = co d & st d1 = st d].
Proof. by move=> F disp T CD C tcd tc cd0 c0 gf d u; apply: busy_try. Qed.
Print Assumptions C17_busy_try_partial.

(* Once an addition, removal or replacement has been performed or rejected, a second
   perform or reject is refused and changes nothing. *)
Theorem C17_call_once_partial :
  forall (F : fieldType) (disp : unit) (T : orderType disp) (CD C : eqType)
         (tcd : CD -> T) (tc : C -> T) (cd0 : CD) (c0 : C)
         (d d1 : dm F T CD C) (a : unit),
    real_mode (w_mode (wk d)) ->
    perform_update tcd tc cd0 c0 d = DOk d1 a \/ reject_update tcd tc cd0 c0 d = DOk d1 a ->
    perform_update tcd tc cd0 c0 d1 = DThrow d1 /\ reject_update tcd tc cd0 c0 d1 = DThrow d1.
Proof. by move=> F disp T CD C tcd tc cd0 c0 d d1 a; apply: call_once. Qed.
Print Assumptions C17_call_once_partial.

Theorem C17_reject_once_partial :
  forall (F : fieldType) (disp : unit) (T : orderType disp) (CD C : eqType)
         (tcd : CD -> T) (tc : C -> T) (cd0 : CD) (c0 : C)
         (d d1 : dm F T CD C) (a : unit),
    w_mode (wk d) = Some m_rem_add ->
    perform_update tcd tc cd0 c0 d = DOk d1 a \/ reject_update tcd tc cd0 c0 d = DOk d1 a ->
    reject_update tcd tc cd0 c0 d1 = DThrow d1.
Proof. by move=> F disp T CD C tcd tc cd0 c0 d d1 a; apply: reject_once. Qed.
Print Assumptions C17_reject_once_partial.

Definition fresh0 : dm0 := dm_new rat_fieldType T0 nat_eqType nat_eqType.

(* A pending addition: perform succeeds once; a second perform is refused, and so is a
   request while the addition is pending. *)
Example C17_case : exists (d1 d2 : dm0) r,
  [/\ try0 gI (req [::] [::] [:: 0]%N [:: 1]%N) fresh0 = DOk d1 r, perform0 d1 = DOk d2 tt,
      perform0 d2 = DThrow d2 &
      exists d3, try0 gI (req [:: 0]%N [:: 1]%N [::] [::]) d1 = DThrow d3].
Proof.
have adm : admissible tm0 tm0 (req [::] [::] [:: 0]%N [:: 1]%N) ([::], [::]) by [].
have h0 : holds0 gI fresh0 ([::], [::]) by exact: new_ok.
have [d1 [r [e _ ex hp]]] := request_ok h0 adm.
have rn : r != 0.
  by have := ex (or_introl isT); rewrite weight_nil GRing.mulr1 => <-; rewrite [weight0 gI _](weightI1 0).
have [_ [d2 [e2 _]]] := hp rn.
have e' : try0 gI (req [::] [::] [:: 0]%N [:: 1]%N) fresh0 = DOk d1 r by exact: e.
have [md sd] : w_mode (wk d1) = Some m_add /\ st d1 = try_add_called.
  by move: e => /= [<- _].
have rm : real_mode (w_mode (wk d1)) by rewrite md.
have [e3 _] := C17_call_once_partial rm (or_introl e2).
exists d1, d2, r; split=> //.
have nw : st d1 <> waiting by rewrite sd.
have [d3 [e4 _ _]] := C17_busy_try_partial tm0 tm0 0%N 0%N gI nw (u := req [:: 0]%N [:: 1]%N [::] [::]) isT isT.
by exists d3.
Qed.

(* Before any try, perform and reject read a member that was never assigned. *)
Theorem C17_no_try_refuted : perform0 fresh0 = DUB /\ reject0 fresh0 = DUB.
Proof. by []. Qed.
Print Assumptions C17_no_try_refuted.

(* While an addition is pending an empty request is accepted, perform and reject are then
   accepted any number of times without effect, and the addition is never completed. *)
Theorem C17_empty_request_refuted :
  exists (d1 d2 : dm0) (r : rat),
    [/\ try0 gI (req [::] [::] [:: 0]%N [:: 1]%N) fresh0 = DOk d1 r, st d1 = try_add_called,
        try0 gI (req [::] [::] [::] [::]) d1 = DOk d2 1, perform0 d2 = DOk d2 tt &
        reject0 d2 = DOk d2 tt /\ st d2 = try_add_called].
Proof. by eexists _, _, _; split; [reflexivity | | reflexivity | | ]. Qed.
Print Assumptions C17_empty_request_refuted.

(* A request that is refused because an addition is pending makes the addition
   impossible to perform or to reject. *)
Theorem C17_refused_try_refuted :
  exists (d1 d2 : dm0) (r : rat),
    [/\ try0 gI (req [::] [::] [:: 0]%N [:: 1]%N) fresh0 = DOk d1 r,
        try0 gI (req [:: 0]%N [:: 1]%N [::] [::]) d1 = DThrow d2,
        perform0 d2 = DThrow d2, reject0 d2 = DThrow d2 & st d2 = try_add_called].
Proof. by eexists _, _, _; split; [reflexivity | reflexivity | | | ]. Qed.
Print Assumptions C17_refused_try_refuted.

(* Performing a remove-and-add that has been rejected throws, but only after the inverse
   has been replaced: one pair is stored and the inverse is 2 x 2. *)
Theorem C17_late_perform_refuted :
  exists (d d1 d2 d3 : dm0) (r : rat) (x : conf nat_eqType nat_eqType)
         (u : request nat_eqType nat_eqType),
    [/\ holds0 gI d x /\ admissible tm0 tm0 u x, try0 gI u d = DOk d1 r,
        reject0 d1 = DOk d2 tt /\ holds0 gI d2 x, perform0 d2 = DThrow d3 &
        perm_eq (ops (cds (co d3))) [:: 4]%N /\ sz (co d3) = 2%N].
Proof.
have w : weight0 gI ([:: 4]%N, [:: 5]%N) != 0 by rewrite [weight0 gI _](weightI1 4).
have [d [_ h]] := @construct_ok rat_fieldType _ T0 _ _ tm0 tm0 0%N 0%N gI [:: (4, 5)]%N isT isT w.
pose x : conf nat_eqType nat_eqType := ([:: 4]%N, [:: 5]%N).
pose u := req [:: 4]%N [:: 5]%N [:: 0; 2]%N [:: 1; 3]%N.
have adm : admissible tm0 tm0 u x by split=> // o; rewrite !inE => ->.
have [d1 [r [e [d2 [er h2]] ex hp]]] := request_ok h adm.
have rn : r != 0.
  have := ex (or_intror _); rewrite [weight0 gI x](weightI1 4) GRing.mulr1 => <-.
    by rewrite [weight0 gI _]weightI2.
  by rewrite [weight0 gI _]weight_nil.
have [_ [d3 [ep h3]]] := hp rn.
have e' : try0 gI u d = DOk d1 r by exact: e.
have md : w_mode (wk d1) = Some m_rem_add by apply: (mixed_mode _ _ e').
have [d4 [e4 _ sz4 cd4 _]] := late_perform md er ep.
exists d, d1, d2, d4, r, x, u; split=> //; rewrite cd4 sz4.
by case: h2 => _ [[p1 _ _ _] _] _ _ _; case: h3 => _ [_ [_ ->]] _ _ _.
Qed.
Print Assumptions C17_late_perform_refuted.

(* ------------------------------------------------------------------ C55 *)

(* An addition (C16_impossible_add_partial) or a remove-and-add that would put two
   operators at the same time has ratio zero. *)
Theorem C55_mixed_collision_partial :
  forall (F : fieldType) (disp : unit) (T : orderType disp) (CD C : eqType)
         (tcd : CD -> T) (tc : C -> T) (cd0 : CD) (c0 : C) (gf : C -> CD -> F)
         (d : dm F T CD C) (x : conf CD C) (u : request CD C),
    holds tcd tc cd0 c0 gf d x -> shape u -> mixed u -> uniq (rem_cd u) -> uniq (rem_c u) ->
    {subset rem_cd u <= x.1} -> {subset rem_c u <= x.2} ->
    ~~ distinct_times tcd tc (after u x) ->
    exists d1, try_update tcd tc cd0 c0 gf (rem_cd u) (rem_c u) (add_cd u) (add_c u) d = DOk d1 0.
Proof. by move=> F disp T CD C tcd tc cd0 c0 gf d x u; apply: mixed_collision. Qed.
Print Assumptions C55_mixed_collision_partial.

Example C55_case : exists (d d1 : dm0),
  holds0 gX d ([:: 0; 2]%N, [:: 1; 3]%N) /\
  try0 gX (req [:: 0]%N [:: 1]%N [:: 1]%N [:: 3]%N) d = DOk d1 0.
Proof.
have [d h] := C13_state.
have s1 : {subset [:: 0]%N <= [:: 0; 2]%N} by move=> o; rewrite !inE => ->.
have s2 : {subset [:: 1]%N <= [:: 1; 3]%N} by move=> o; rewrite !inE => ->.
have [d1 e] := @C55_mixed_collision_partial _ _ _ _ _ tm0 tm0 0%N 0%N gX d _
  (req [:: 0]%N [:: 1]%N [:: 1]%N [:: 3]%N) h isT isT isT isT s1 s2 isT.
by exists d, d1.
Qed.

(* Operators with a time and a flavor: replacing a creator by one of another flavor at
   the time of an existing creator is not recognised.  After performing it the look-up
   map sends the time of the new operator to the other operator, and the time of the old
   one to nothing. *)
Definition PN := prod_eqType nat_eqType nat_eqType.
Definition tmP (o : PN) : T0 := o.1.
Definition gP (c : nat) (cd : PN) : rat_fieldType := (c == (10 + cd.2)%N)%:R.
Definition newP := @dm_new_ops rat_fieldType _ T0 PN nat_eqType tmP tm0 (0%N, 0%N) 0%N gP
  [:: ((0%N, 0%N), 10%N); ((1%N, 1%N), 11%N)].

Lemma newP_run : (if newP is DOk d _ then
   Some (sz (co d), ops (cds (co d)), ops (ans (co d)), pos (cds (co d)), st d) else None) =
  Some (2%N, [:: (0, 0); (1, 1)]%N : seq PN, [:: 10; 11]%N, [:: (1, 1); (0, 0)]%N : tmap T0, waiting).
Proof. by vm_compute. Qed.

Theorem C55_replace_collision_refuted :
  exists (d d1 d2 : dm rat_fieldType T0 PN nat_eqType) (r : rat_fieldType),
    [/\ holds tmP tm0 (0%N, 0%N) 0%N gP d ([:: (0, 0); (1, 1)]%N : seq PN, [:: 10; 11]%N),
        try_update tmP tm0 (0%N, 0%N) 0%N gP [:: (1, 1)%N] [::] [:: (0, 1)%N] [::] d = DOk d1 r,
        r != 0,
        perform_update tmP tm0 (0%N, 0%N) 0%N d1 = DOk d2 tt &
        ops (cds (co d2)) = [:: (0, 0); (0, 1)]%N /\ pos (cds (co d2)) = [:: (0, 0)]%N].
Proof.
have w : weight tmP tm0 (0%N, 0%N) 0%N gP ([:: (0, 0); (1, 1)]%N : seq PN, [:: 10; 11]%N) != 0.
  rewrite /weight /= (_ : in_time_order tmP _ = [:: (0, 0); (1, 1)]%N) //.
  by rewrite (_ : in_time_order tm0 _ = [:: 10; 11]%N) // det2.
have [d [e h]] := @construct_ok rat_fieldType _ T0 PN nat_eqType tmP tm0 (0%N, 0%N) 0%N gP
  [:: ((0%N, 0%N), 10%N); ((1%N, 1%N), 11%N)] isT isT w.
have := newP_run; rewrite /newP e => -[zd o1 o2 p1 s1].
have iv : inverse_of 2 (fun i j => (i == j)%:R) (inv (co d)).
  case: h => _ _ _ iv _; move=> i j il jl; rewrite -(iv i j il jl); apply: eq_bigr => k _.
  congr (_ * _); rewrite o1 o2.
  by case: i il => [|[|?]] //; case: k => [[|[|?]] ?].
have iv0 : inverse_of 2 (fun i j => (i == j)%:R) (fun i j => (i == j)%:R : rat_fieldType).
  by move=> [|[|?]] [|[|?]] // _ _; rewrite !big_ord_recl big_ord0 /=.
have eq := inverse_unique iv iv0.
pose col : fmat rat_fieldType := fun i _ => gP (nth 0%N [:: 10; 11]%N i) (0, 1)%N.
have rr : det_ratio_last_col 2 (inv (co d)) col = 1.
  by rewrite /det_ratio_last_col /fmul !big_ord_recl big_ord0 /= !eq.
have et : exists d1, [/\ try_update tmP tm0 (0%N, 0%N) 0%N gP [:: (1, 1)%N] [::] [:: (0, 1)%N] [::] d =
    DOk d1 (replace_sign rat_fieldType (1%N : T0) (0%N : T0) [:: (1, 1); (0, 0)]%N * 1),
    exists d2, perform_update tmP tm0 (0%N, 0%N) 0%N d1 = DOk d2 tt /\
     (ops (cds (co d2)) = [:: (0, 0); (0, 1)]%N /\ pos (cds (co d2)) = [:: (0, 0)]%N)
    & True].
  rewrite /try_update /= /try_replace_cdagg /= s1 /= p1 zd /= /swap_cdagg_op /= p1 o2 rr.
  eexists; split; [reflexivity| |by []].
  rewrite /perform_update /= /perform_replace_cdagg /= zd; eexists; split; first by reflexivity.
  by rewrite /= o1 p1.
have [d1 [e1 [d2 [e2 [o3 p3]]] _]] := et.
exists d, d1, d2; eexists; split; [exact: h | exact: e1 | by vm_compute | exact: e2 | by split].
Qed.
Print Assumptions C55_replace_collision_refuted.
