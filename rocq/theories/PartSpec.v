(* Specification vocabulary for the partitioned determinant matrix: sectors of a
   configuration, regrouping sign, and what it means for the object to hold a
   configuration. *)
From mathcomp Require Import all_ssreflect ssralg matrix order.
From Verif Require Import Outcome ClusterModel ClusterSpec SortSpec MatLib MatSpec DetMatModel DetMatSpec PartModel.

Set Implicit Arguments.
Unset Strict Implicit.
Unset Printing Implicit Defensive.

Local Open Scope ring_scope.

Section Grouping.
Variables (F : fieldType) (disp : unit) (T : orderType disp) (O : eqType) (tm : O -> T).
Variable sec : O -> nat.

(* the operators of one sector *)
Definition in_sector (s : nat) (l : seq O) : seq O := [seq o <- l | sec o == s].
(* sector after sector, in time order within each *)
Definition grouped (ns : nat) (l : seq O) : seq O :=
  flatten [seq in_time_order tm (in_sector s l) | s <- iota 0 ns].
(* sign of the permutation from time order to grouped order *)
Definition regroup_sign (ns : nat) (l : seq O) : F :=
  (-1) ^+ inversions (fun s t : T => (s < t)%O) (map tm (grouped ns l)).

(* the sets hold exactly these operators *)
Definition sets_hold (ns : nat) (s : sets O) (l : seq O) : Prop :=
  [/\ perm_eq (whole s) l, size (sectored s) = ns &
      forall k, (k < ns)%N -> perm_eq (nth [::] (sectored s) k) (in_sector k l)].

(* histories of single insertions and removals of operators of known sectors: the list
   they should lead to and the product of the returned signs *)
Inductive set_history (ns : nat) : sets O -> seq O -> sets O -> seq O -> F -> Prop :=
| sh_nil s l : set_history ns s l s l 1
| sh_insert s l o s2 l2 p :
    tm o \notin map tm l -> (sec o < ns)%N ->
    let r := insert_sign_change F tm o (sec o) s in
    set_history ns r.2 (o :: l) s2 l2 p -> set_history ns s l s2 l2 (r.1 * p)
| sh_erase s l o s2 l2 p :
    o \in l ->
    let r := erase_sign_change F tm o (sec o) s in
    set_history ns r.2 (rem o l) s2 l2 p -> set_history ns s l s2 l2 (r.1 * p).

End Grouping.

Section Spec.
Variables (F : fieldType) (disp : unit) (T : orderType disp).
Variables (CD C : eqType) (tcd : CD -> T) (tc : C -> T) (cd0 : CD) (c0 : C).
Variables (fcd : CD -> nat) (fc : C -> nat).
Variable gf : C -> CD -> F.
Notation conf := (conf CD C).
Notation request := (request CD C).
Notation pdm := (pdm F T CD C).

(* the Green function vanishes between different flavors that are not connected *)
Definition respects (connected : nat -> nat -> bool) : Prop :=
  forall (c : C) (cd : CD), fc c != fcd cd -> ~~ connected (fc c) (fcd cd) -> gf c cd = 0.

(* flavors below N *)
Definition known (N : nat) (x : conf) : bool :=
  all (fun o => fcd o < N)%N x.1 && all (fun o => fc o < N)%N x.2.

(* part of a configuration or request belonging to a sector *)
Definition sector_conf (labels : seq nat) (s : nat) (x : conf) : conf :=
  (in_sector (sector_of labels fcd) s x.1, in_sector (sector_of labels fc) s x.2).
Definition sector_request (labels : seq nat) (s : nat) (u : request) : request :=
  Req (in_sector (sector_of labels fcd) s (rem_cd u)) (in_sector (sector_of labels fc) s (rem_c u))
      (in_sector (sector_of labels fcd) s (add_cd u)) (in_sector (sector_of labels fc) s (add_c u)).

(* the request changes the numbers of creation and annihilation operators equally *)
Definition balanced (u : request) : bool :=
  (size (add_cd u) + size (rem_c u) == size (add_c u) + size (rem_cd u))%N.

(* the sectors are the connected components of the flavors, with one block for each, and
   the operator lists are those of the blocks one after the other *)
Definition layout (N : nat) (connected : nat -> nat -> bool) (p : pdm) : Prop :=
  [/\ p_flavors p = N, good_clustering N (connections N connected) (p_labels p) (p_members p),
      size (p_dets p) = size (p_members p) &
      (p_ocd p, p_oc p) = (flatten [seq ops (cds (co d)) | d <- p_dets p],
                           flatten [seq ops (ans (co d)) | d <- p_dets p])].

(* no update is pending *)
Definition idle (N : nat) (p : pdm) : Prop :=
  [/\ p_rcd p = nseq N [::], p_rc p = nseq N [::], p_acd p = nseq N [::] & p_ac p = nseq N [::]].

(* the object holds the configuration: its lists and sets contain these operators, every
   block holds the operators of its sector, the inverse matrix is the inverse of the full
   matrix in the order of the lists, and the determinant is the one of the full matrix in
   time order *)
Definition p_holds (p : pdm) (x : conf) : Prop :=
  [/\ distinct_times tcd tc x /\ known (p_flavors p) x,
      sets_hold (sector_of (p_labels p) fcd) (size (p_members p)) (p_cd p) x.1 /\
      sets_hold (sector_of (p_labels p) fc) (size (p_members p)) (p_c p) x.2,
      [/\ perm_eq (p_ocd p) x.1, perm_eq (p_oc p) x.2 &
          inverse_of (size x.1) (fun i j => gf (nth c0 (p_oc p) i) (nth cd0 (p_ocd p) j)) (p_inverse p)],
      forall s, (s < size (p_members p))%N ->
        holds tcd tc cd0 c0 gf (nth (dm_new F T CD C) (p_dets p) s)
          (sector_conf (p_labels p) s x) &
      p_determinant p = weight tcd tc cd0 c0 gf x].

(* waiting for a request, with this configuration *)
Definition p_ready (N : nat) (connected : nat -> nat -> bool) (p : pdm) (x : conf) : Prop :=
  [/\ layout N connected p, idle N p & p_holds p x].

(* a request that can be answered: the operators to remove are present, the new times are
   free, and within every sector the request has one of the supported shapes or is
   unbalanced *)
Definition p_admissible (p : pdm) (u : request) (x : conf) : Prop :=
  [/\ uniq (rem_cd u) && uniq (rem_c u), {subset rem_cd u <= x.1}, {subset rem_c u <= x.2},
      distinct_times tcd tc (after u x) /\ known (p_flavors p) (add_cd u, add_c u) &
      forall s, (s < size (p_members p))%N ->
        shape (sector_request (p_labels p) s u) \/ ~~ balanced (sector_request (p_labels p) s u)].

(* no sector both loses and gains operators with a singular block in between *)
Definition no_singular_step (p : pdm) (u : request) (x : conf) : Prop :=
  forall s, (s < size (p_members p))%N ->
    ~~ mixed (sector_request (p_labels p) s u) \/
    weight tcd tc cd0 c0 gf (kept (sector_request (p_labels p) s u) (sector_conf (p_labels p) s x)) != 0.

(* One update cycle. *)
Definition p_cycle (u : request) (accept : bool) (p : pdm) : outcome (pdm * F) :=
  obind (p_try tcd tc cd0 c0 fcd fc gf (rem_cd u) (rem_c u) (add_cd u) (add_c u) p) (fun r =>
  obind (if accept then p_perform tcd tc cd0 c0 r.1 else p_reject tcd tc cd0 c0 r.1) (fun p2 =>
  Ok (p2, r.2))).

(* A history of update cycles; a request is accepted only if its ratio is not zero. *)
Inductive p_history : pdm -> conf -> pdm -> conf -> Prop :=
| ph_nil p x : p_history p x p x
| ph_cons p x u (accept : bool) r p1 p2 x2 :
    p_admissible p u x -> p_cycle u accept p = Ok (p1, r) -> (accept -> r != 0) ->
    p_history p1 (if accept then after u x else x) p2 x2 ->
    p_history p x p2 x2.

End Spec.
