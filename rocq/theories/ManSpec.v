(* Specification vocabulary for the Monte Carlo moves: the target distribution, proposal and
   acceptance rates of the textbook algorithm, and permutations of vertex types.  The only
   definitions of the model used are the data types of vertices. *)
From mathcomp Require Import all_ssreflect ssralg ssrnum ssrint matrix.
From Verif Require Import SubModel SubSpec.

Set Implicit Arguments.
Unset Strict Implicit.
Unset Printing Implicit Defensive.

Import GRing.Theory Num.Theory.
Local Open Scope ring_scope.

Section ManSpec.
Variables (F : numFieldType) (Tm : eqType).
Variable G0 : sop Tm -> sop Tm -> F.
Variable U : seq (vdef F).
Variables (x0 : sop Tm) (nf : nat).
Variable beta : F.
Notation wt := (weight G0 U x0 nf).

(* the perturbation order *)
Definition sp_order (vs : seq (vertex Tm)) : nat := size [seq v <- vs | ~~ v_non v].
(* the positions of the interacting vertices *)
Definition sp_int_positions (d : vertex Tm) (vs : seq (vertex Tm)) : seq nat :=
  [seq i <- iota 0 (size vs) | ~~ v_non (nth d vs i)].
(* the target density: |weight| times us per vertex, averaged over the auxiliary fields *)
Definition sp_target (us : F) (vs : seq (vertex Tm)) : F :=
  `|wt vs| * us ^+ sp_order vs * \prod_(v <- vs | ~~ v_non v) ((vd_naf (sp_def U v))%:R)^-1.
(* the density with which one vertex is proposed: uniform time, type and state *)
Definition sp_propose_ins (v : vertex Tm) : F :=
  beta^-1 * ((size U)%:R)^-1 * ((vd_naf (sp_def U v))%:R)^-1.
(* each interacting vertex is proposed for removal with the same probability *)
Definition sp_propose_rem (vs : seq (vertex Tm)) : F := ((sp_order vs)%:R)^-1.
(* acceptance thresholds of the moves vs -> vs' *)
Definition sp_ins_rate (us : F) (vs vs' : seq (vertex Tm)) : F :=
  `|wt vs' / wt vs| * (beta * (size U)%:R / (sp_order vs).+1%:R) * us.
Definition sp_rem_rate (us : F) (vs vs' : seq (vertex Tm)) : F :=
  `|wt vs' / wt vs| * ((sp_order vs)%:R / (beta * (size U)%:R)) / us.

(* the number of steps of the sequence that change the weight *)
Fixpoint sp_changes_weight (vs : seq (vertex Tm)) (tr : seq (seq (vertex Tm))) : nat :=
  if tr is ws :: tr' then ((wt ws != wt vs) + sp_changes_weight ws tr')%N else 0%N.

End ManSpec.

(* the successive configurations of a session: every step leaves the configuration or
   switches one vertex on or off *)
Fixpoint sp_trace (Tm : eqType) (d : vertex Tm) (vs : seq (vertex Tm)) (tr : seq (seq (vertex Tm))) : Prop :=
  if tr is ws :: tr' then
    (ws = vs \/ exists p st, (p < size vs)%N /\ ws = sp_flip d vs [:: (p, st)]) /\ sp_trace d ws tr'
  else True.

(* the map of vertex types undone by another *)
Definition undoes (n : nat) (m m' : seq nat) : Prop :=
  forall i, (i < n)%N -> nth 0%N m' (nth 0%N m i) = i.
Definition is_permutation (n : nat) (m : seq nat) : Prop :=
  size m = n /\ perm_eq m (iota 0 n).
(* the lines of one map in the file of global updates: type and its image, from type iv on *)
Fixpoint sp_map_lines (iv : nat) (m : seq nat) : seq int :=
  if m is d :: m' then Posz iv :: Posz d :: sp_map_lines iv.+1 m' else [::].
(* the file: the number of maps, then the maps *)
Definition sp_map_file (ms : seq (seq nat)) : seq int :=
  Posz (size ms) :: flatten [seq sp_map_lines 0 m | m <- ms].
