(* Specification vocabulary for the determinant matrix: configurations of operators,
   their weight (the determinant in time order), update requests and what it means for
   the object to hold a configuration.  Independent of the update algorithms. *)
From mathcomp Require Import all_ssreflect ssralg matrix order.
From Verif Require Import Outcome MatLib MatSpec DetMatModel.

Set Implicit Arguments.
Unset Strict Implicit.
Unset Printing Implicit Defensive.

Local Open Scope ring_scope.

(* operators sorted by time *)
Definition in_time_order (disp : unit) (T : orderType disp) (O : Type) (tm : O -> T)
  (l : seq O) : seq O := sort (fun x y => (tm x <= tm y)%O) l.

Section Spec.
Variables (F : fieldType) (disp : unit) (T : orderType disp).
Variables (CD C : eqType) (tcd : CD -> T) (tc : C -> T) (cd0 : CD) (c0 : C).
Variable gf : C -> CD -> F.

(* a configuration: the creation and the annihilation operators, in any order *)
Definition conf := (seq CD * seq C)%type.

(* determinant of the Green-function matrix with all operators in time order *)
Definition weight (x : conf) : F :=
  det_of (size x.1) (fun i j =>
    gf (nth c0 (in_time_order tc x.2) i) (nth cd0 (in_time_order tcd x.1) j)).

(* a request: operators to remove and operators to add *)
Record request := Req { rem_cd : seq CD; rem_c : seq C; add_cd : seq CD; add_c : seq C }.

(* the configuration a request asks for *)
Definition after (u : request) (x : conf) : conf :=
  ([seq o <- x.1 | o \notin rem_cd u] ++ add_cd u,
   [seq o <- x.2 | o \notin rem_c u] ++ add_c u).
(* the operators a request leaves alone *)
Definition kept (u : request) (x : conf) : conf :=
  ([seq o <- x.1 | o \notin rem_cd u], [seq o <- x.2 | o \notin rem_c u]).

(* no two operators at the same time *)
Definition distinct_times (x : conf) : bool := uniq (map tcd x.1 ++ map tc x.2).

(* as many creation as annihilation operators, or one operator for another *)
Definition shape (u : request) : bool :=
  [|| (size (rem_cd u) == size (rem_c u)) && (size (add_cd u) == size (add_c u)),
      [&& size (rem_cd u) == 1%N, size (add_cd u) == 1%N, size (rem_c u) == 0%N
        & size (add_c u) == 0%N]
    | [&& size (rem_cd u) == 0%N, size (add_cd u) == 0%N, size (rem_c u) == 1%N
        & size (add_c u) == 1%N]].

(* a request that can be fulfilled *)
Definition admissible (u : request) (x : conf) : Prop :=
  [/\ shape u, uniq (rem_cd u) && uniq (rem_c u), {subset rem_cd u <= x.1},
      {subset rem_c u <= x.2} & distinct_times (after u x)].

(* operator pairs are both removed and added *)
Definition mixed (u : request) : bool :=
  [&& (0 < size (rem_cd u))%N, (0 < size (rem_c u))%N, (0 < size (add_cd u))%N
    & (0 < size (add_c u))%N].

(* something is asked for *)
Definition nonempty (u : request) : bool :=
  (0 < size (rem_cd u) + size (rem_c u) + size (add_cd u) + size (add_c u))%N.

(* the look-up map sends the time of every stored operator to its position and
   contains nothing else *)
Definition map_points (O : eqType) (tm : O -> T) (o0 : O) (s : side T O) : Prop :=
  uniq (unzip1 (pos s)) /\
  forall t k, mfind t (pos s) = Some k <-> ((k < size (ops s))%N /\ tm (nth o0 (ops s) k) = t).

(* the operators stored are those of the configuration *)
Definition stores (c : core F T CD C) (x : conf) : Prop :=
  [/\ perm_eq (ops (cds c)) x.1, perm_eq (oset (cds c)) x.1,
      perm_eq (ops (ans c)) x.2 & perm_eq (oset (ans c)) x.2].

(* the object is waiting and holds the configuration consistently *)
Definition holds (d : dm F T CD C) (x : conf) : Prop :=
  [/\ st d = waiting /\ distinct_times x,
      stores (co d) x /\ (size x.1 = size x.2 /\ sz (co d) = size x.1),
      map_points tcd cd0 (cds (co d)) /\ map_points tc c0 (ans (co d)),
      inverse_of (size x.1)
        (fun i j => gf (nth c0 (ops (ans (co d))) i) (nth cd0 (ops (cds (co d))) j))
        (inv (co d)) &
      compute_determinant d = weight x].

(* element of the stored inverse between two operators *)
Definition inverse_between (d : dm F T CD C) (a : CD) (b : C) : F :=
  inv (co d) (index a (ops (cds (co d)))) (index b (ops (ans (co d)))).

(* the pending (or last) update adds, removes or replaces *)
Definition real_mode (m : option umode) : bool :=
  match m with
  | Some m_add | Some m_rem | Some m_replace_cdagg | Some m_replace_c => true
  | _ => false
  end.

(* One update cycle: try, then perform when it is accepted, reject otherwise. *)
Definition cycle (u : request) (accept : bool) (d : dm F T CD C) : dres F T CD C F :=
  match try_update tcd tc cd0 c0 gf (rem_cd u) (rem_c u) (add_cd u) (add_c u) d with
  | DOk d1 r =>
    match (if accept then perform_update tcd tc cd0 c0 d1 else reject_update tcd tc cd0 c0 d1) with
    | DOk d2 _ => DOk d2 r
    | DThrow d2 => DThrow d2
    | DUB => DUB
    end
  | DThrow d1 => DThrow d1
  | DUB => DUB
  end.

(* A history of update cycles together with the configuration it should lead to: every
   request is admissible, and a request is accepted only if its ratio is not zero. *)
Inductive history : dm F T CD C -> conf -> dm F T CD C -> conf -> Prop :=
| history_nil d x : history d x d x
| history_cons d x u (accept : bool) r d1 d2 x2 :
    admissible u x -> cycle u accept d = DOk d1 r -> (accept -> r != 0) ->
    history d1 (if accept then after u x else x) d2 x2 ->
    history d x d2 x2.

End Spec.
