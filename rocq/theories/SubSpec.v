(* Specification vocabulary for the submatrix update: the weight of a configuration
   of vertices, spin-flip requests and their effect, without any of the auxiliary
   matrices of the implementation.  Only the data types of vertices and operators are
   taken from SubModel. *)
From mathcomp Require Import all_ssreflect ssralg ssrnum ssrint matrix.
From Verif Require Import MatSpec SubModel.

Set Implicit Arguments.
Unset Strict Implicit.
Unset Printing Implicit Defensive.

Local Open Scope ring_scope.

Section SubSpec.
Variables (F : numFieldType) (Tm : eqType).
Variable G0 : sop Tm -> sop Tm -> F.
Variable U : seq (vdef F).

Definition sp_def (v : vertex Tm) : vdef F := nth (vdef0 F) U (v_type v).
(* the flavor of part r of a vertex *)
Definition sp_flavor (v : vertex Tm) (r : nat) : nat := nth 0%N (vd_flavors (sp_def v)) r.
(* annihilation operator, creation operator and alpha of part r of an interacting
   vertex *)
Definition sp_term (v : vertex Tm) (r : nat) : sop Tm * sop Tm * F :=
  let site k : nat := nth 0%N (vd_sites (sp_def v)) (2 * r + k)%N in
  ((sp_flavor v r, site 1%N, v_time v, - r%:Z),
   (sp_flavor v r, site 0%N, v_time v, - r%:Z),
   vd_alpha (sp_def v) (v_af v) r).
(* all operators of one flavor, in the order of the vertices *)
Definition sp_ops (fl : nat) (vs : seq (vertex Tm)) : seq (sop Tm * sop Tm * F) :=
  flatten [seq [seq sp_term v r | r <- iota 0 (vd_rank (sp_def v)) & sp_flavor v r == fl]
          | v <- vs & ~~ v_non v].

Definition term0 (x : sop Tm) : sop Tm * sop Tm * F := (x, x, 0).
(* the matrix G0(annihilator i, creator j) - delta_ij alpha_i *)
Definition sp_mat (x0 : sop Tm) (ops : seq (sop Tm * sop Tm * F)) (i j : nat) : F :=
  let t k := nth (term0 x0) ops k in
  G0 (t i).1.1 (t j).1.2 - (if i == j then (t i).2 else 0).
(* the matrix A = F - G0 (F - 1), F = diag(alpha / (alpha - 1)) *)
Definition sp_A (x0 : sop Tm) (ops : seq (sop Tm * sop Tm * F)) (i j : nat) : F :=
  let t k := nth (term0 x0) ops k in
  let f k := (t k).2 / ((t k).2 - 1) in
  (if i == j then f j else 0) - G0 (t i).1.1 (t j).1.2 * (f j - 1).

(* the weight of a configuration *)
Definition weight (x0 : sop Tm) (nf : nat) (vs : seq (vertex Tm)) : F :=
  (\prod_(fl < nf) det_of (size (sp_ops fl vs)) (sp_mat x0 (sp_ops fl vs))) *
  \prod_(v <- vs | ~~ v_non v) - vd_U (sp_def v).

(* a request: position of a vertex and its new state, None for non-interacting *)
Definition request := seq (nat * option nat).
Definition valid_req (v0 : vertex Tm) (vs : seq (vertex Tm)) (req : request) : bool :=
  uniq [seq x.1 | x <- req] &&
  all (fun x => (x.1 < size vs)%N &&
    (if x.2 is Some a then (a < vd_naf (sp_def (nth v0 vs x.1)))%N else true)) req.

(* the configuration after the flips *)
Definition sp_set (v : vertex Tm) (st : option nat) : vertex Tm :=
  if st is Some a then (v_type v, a, v_time v, false, v_uid v)
  else (v_type v, v_af v, v_time v, true, v_uid v).
Definition sp_flip (v0 : vertex Tm) (vs : seq (vertex Tm)) (req : request) : seq (vertex Tm) :=
  [seq (if i \in [seq x.1 | x <- req]
        then sp_set (nth v0 vs i) (nth (0%N, None) req (index i [seq x.1 | x <- req])).2
        else nth v0 vs i) | i <- iota 0 (size vs)].

(* the alpha of part r of a vertex, None if it does not interact *)
Definition sp_alpha (v : vertex Tm) (st : option nat) (r : nat) : option F :=
  if st is Some a then Some (vd_alpha (sp_def v) a r) else None.
Definition sp_state (v : vertex Tm) : option nat := if v_non v then None else Some (v_af v).

(* the alphas of one flavor a request changes: at the start of the session, now, and
   requested *)
Definition sp_changes (d : vertex Tm) (vs0 vs : seq (vertex Tm)) (req : request) (fl : nat) :
    seq (option F * option F * option F) :=
  [seq c <- flatten [seq
       (let v := nth d vs x.1 in let v0 := nth d vs0 x.1 in
        [seq (sp_alpha v (sp_state v0) r, sp_alpha v (sp_state v) r, sp_alpha v x.2 r)
        | r <- iota 0 (vd_rank (sp_def v)) & sp_flavor v r == fl]) | x <- req]
  | c.1.2 != c.2].
(* on every flavor a request either only changes alphas that still have their value of
   the start of the session, or only changes alphas back to that value *)
Definition simple (d : vertex Tm) (nf : nat) (vs0 vs : seq (vertex Tm)) (req : request) : Prop :=
  forall fl, (fl < nf)%N ->
    all (fun c => c.1.1 == c.1.2) (sp_changes d vs0 vs req fl) ||
    all (fun c => c.1.1 == c.2) (sp_changes d vs0 vs req fl).

(* a flip of one vertex that only changes alphas back to their value of the start of the
   session, and one that only changes alphas that still have it *)
Definition sp_back (d : vertex Tm) (nf : nat) (vs0 vs : seq (vertex Tm)) (x : nat * option nat) : bool :=
  all (fun fl => all (fun c => c.1.1 == c.2) (sp_changes d vs0 vs [:: x] fl)) (iota 0 nf).
Definition sp_away (d : vertex Tm) (nf : nat) (vs0 vs : seq (vertex Tm)) (x : nat * option nat) : bool :=
  all (fun fl => all (fun c => c.1.1 == c.1.2) (sp_changes d vs0 vs [:: x] fl)) (iota 0 nf).

(* the vertex types an interaction has to offer: parts with a flavor and two sites,
   alphas different from 0, 1 and the mark [ani] of non-interacting vertices *)
Definition sp_type_ok (ani : F) (nf : nat) (d : vdef F) : bool :=
  [&& (0 < vd_rank d)%N, (size (vd_flavors d) == vd_rank d)%N, (size (vd_sites d) == 2 * vd_rank d)%N,
      all (fun fl => fl < nf)%N (vd_flavors d), vd_U d != 0 &
      all (fun a => all (fun r => [&& vd_alpha d a r != 0, vd_alpha d a r != 1 & vd_alpha d a r != ani])
                        (iota 0 (vd_rank d))) (iota 0 (vd_naf d))].
Definition sp_types_ok (ani : F) (nf : nat) : bool := all (sp_type_ok ani nf) U.
(* a vertex of a known type, in a known state *)
Definition sp_vertex_ok (v : vertex Tm) : bool :=
  (v_type v < size U)%N && (v_non v || (v_af v < vd_naf (sp_def v))%N).
(* a vertex with an operator on every flavor *)
Definition sp_covers (nf : nat) (v : vertex Tm) : bool :=
  all (fun fl => has (fun r => sp_flavor v r == fl) (iota 0 (vd_rank (sp_def v)))) (iota 0 nf).

End SubSpec.
