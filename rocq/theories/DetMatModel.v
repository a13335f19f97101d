(* Model of /repo/include/alps/fastupdate/determinant_matrix.hpp and
   /repo/include/alps/fastupdate/detail/determinant_matrix*.ipp
   (file names below without the directory; "dm" = determinant_matrix).
   Simplifications:
   - numbers live in an arbitrary field, times in an arbitrary total order;
   - int signs (permutation_row_col_, perm_rat_) are the field elements 1 and -1;
   - std::map<time,int> is an association list; only look-up, insertion, erasure and
     the distance lower_bound..end are used, none of which depends on list order;
   - the sets of operators (multi_index_container) are duplicate-free lists, two
     operators being equivalent exactly when they are equal; iteration order is not
     modelled;
   - sanity_check (dm.ipp:332-373) is empty in the release build;
   - work space of an impossible try is marked stale (None); performing it is UB. *)
From mathcomp Require Import all_ssreflect ssralg matrix order.
From Verif Require Import Outcome MatLib SortModel FormulaModel.

Set Implicit Arguments.
Unset Strict Implicit.
Unset Printing Implicit Defensive.

Local Open Scope ring_scope.

(* ---- containers ---- *)
Section Containers.
Variables (disp : unit) (T : orderType disp).

(* dm.hpp:53 — operator_map_t = std::map<itime_t,int>. *)
Definition tmap := seq (T * nat).
(* std::map::find / at, used in dm.hpp:366-388. *)
Definition mfind (t : T) (m : tmap) : option nat := ohead [seq kv.2 | kv <- m & kv.1 == t].
(* std::map::operator[] followed by an assignment, dm.ipp:192-193, 214-215. *)
Definition massign (t : T) (k : nat) (m : tmap) : tmap :=
  if t \in unzip1 m then [seq (if kv.1 == t then (t, k) else kv) | kv <- m]
  else (t, k) :: m.
(* std::map::insert with its flag, dm.ipp:246, 255. *)
Definition minsert (t : T) (k : nat) (m : tmap) : tmap * bool :=
  if t \in unzip1 m then (m, false) else ((t, k) :: m, true).
(* std::map::erase(key), dm.ipp:285, 290, 313, 315. *)
Definition merase (t : T) (m : tmap) : tmap := [seq kv <- m | kv.1 != t].
(* std::distance(m.lower_bound(t), m.end()), dm.ipp:245, 254, 284, 289. *)
Definition mlower (t : T) (m : tmap) : nat := count (fun kv : T * nat => ~~ (kv.1 < t)%O) m.

Variables (O : eqType) (tm : O -> T) (o0 : O).

(* multi_index_container::insert and ::erase, dm.hpp:54-55. *)
Definition sinsert (o : O) (s : seq O) : seq O := if o \in s then s else o :: s.
(* dm.hpp:54-55 — erase(key). *)
Definition serase (o : O) (s : seq O) : seq O := [seq x <- s | x != o].

(* dm.hpp:216-227 — the members of one kind of operators: c_ops_, c_ops_set_,
   cop_pos_ (or cdagg_ops_, cdagg_ops_set_, cdagg_op_pos_). *)
Record side := Side { ops : seq O; oset : seq O; pos : tmap }.
(* dm.ipp:12-21 — empty containers after construction. *)
Definition side0 : side := Side [::] [::] [::].

(* dm.ipp:243-250 (252-259) — push one operator to the end as number p: the distance
   added to perm_diff, the new containers and whether the map insertion succeeded. *)
Definition side_push (p : nat) (o : O) (s : side) : nat * side * bool :=
  let r := minsert (tm o) p (pos s) in
  (mlower (tm o) (pos s), Side (rcons (ops s) o) (sinsert o (oset s)) r.1, r.2).

(* dm.ipp:283-286, 293 (288-291, 294) — drop the last operator: the distance added to
   perm_diff and the new containers; back() of an empty vector is UB. *)
Definition side_pop (s : side) : option (nat * side) :=
  if ops s is o :: l then
    let b := last o l in
    Some (mlower (tm b) (pos s),
          Side (belast o l) (serase b (oset s)) (merase (tm b) (pos s)))
  else None.

(* dm.ipp:190-193, 197 (212-215, 219) — exchange two operators. *)
Definition side_swap (i j : nat) (s : side) : side :=
  let t1 := tm (nth o0 (ops s) i) in
  let t2 := tm (nth o0 (ops s) j) in
  Side (swap_at o0 i j (ops s)) (oset s) (massign t2 i (massign t1 j (pos s))).

(* dm.ipp:312-320 — erase the operators from position [offset] on from set and map,
   [k] of them, then resize the vector. *)
Definition side_excess (offset k : nat) (s : side) : side :=
  let ex := [seq nth o0 (ops s) (i + offset)%N | i <- iota 0 k] in
  Side (take offset (ops s) ++ nseq (offset - size (ops s)) o0)
       (foldl (fun st o => serase o st) (oset s) ex)
       (foldl (fun m o => merase (tm o) m) (pos s) ex).

(* dm_replace.ipp:68-73 (148-153) — put the new operator at the last position. *)
Definition side_replace (nop : nat) (old new : O) (s : side) : side :=
  Side (set_nth o0 (ops s) (nop - 1) new) (sinsert new (serase old (oset s)))
       (minsert (tm new) (nop - 1) (merase (tm old) (pos s))).1.

End Containers.

(* dm.hpp:62-69 — DeterminantMatrixState. *)
Inductive dstate := waiting | try_add_called | try_rem_called | try_rem_add_called
  | try_replace_cdagg_called | try_replace_c_called.
(* dm.hpp:71-79 — UpdateMode. *)
Inductive umode := do_nothing | m_add | m_rem | m_rem_add | m_replace_cdagg | m_replace_c
  | invalid_operation.

(* check_state, dm.hpp:245-249: comparison of two states. *)
Definition dstate_eqb (a b : dstate) : bool :=
  match a, b with
  | waiting, waiting | try_add_called, try_add_called | try_rem_called, try_rem_called
  | try_rem_add_called, try_rem_add_called
  | try_replace_cdagg_called, try_replace_cdagg_called
  | try_replace_c_called, try_replace_c_called => true
  | _, _ => false
  end.

Section DetMat.
Variables (F : fieldType) (disp : unit) (T : orderType disp).
(* CdaggerOp, COp, operator_time and the Green function, dm.hpp:20-32; cd0 and c0 are
   default constructed operators. *)
Variables (CD C : eqType) (tcd : CD -> T) (tc : C -> T) (cd0 : CD) (c0 : C).
Variable gf : C -> CD -> F.

(* dm.hpp:210-227 — the lasting members: inv_matrix_ (size and entries),
   permutation_row_col_ and the operator containers. *)
Record core := Core {
  sz : nat; inv : fmat F; perm : F;
  cds : side T CD; ans : side T C }.

(* dm.hpp:208, 229-239 — the members used between try and perform/reject.  None stands for
   an uninitialised or stale member. *)
Record work := Work {
  w_mode : option umode;                                     (* update_mode_ *)
  w_perm : option F;                                         (* perm_rat_ *)
  w_added : option nat;                                      (* nop_added_ *)
  w_impossible : option bool;                                (* update_impossible_ *)
  w_removed : seq (CD * C);                                  (* removed_op_pairs_ *)
  w_blocks : option (nat * nat * fmat F * fmat F * fmat F);  (* G_j_n_, G_n_j_, G_n_n_ *)
  w_help : option (nat * nat * option (fmat F * fmat F));    (* replace_helper_ *)
  w_line : option (fmat F);                                  (* G_j_n_ or G_n_j_ of a replacement *)
  w_det : F;                                                 (* det_rat_ *)
  w_cd : option (CD * CD);                                   (* old_cdagg_, new_cdagg_ *)
  w_c : option (C * C) }.                                    (* old_c_, new_c_ *)

(* dm.hpp:33 — the object. *)
Record dm := DM { st : dstate; co : core; wk : work }.

(* The result of calling a member function: the object afterwards and a value, or an
   exception and the object it leaves behind, or UB (dm.hpp:81-203). *)
Inductive dres (A : Type) := DOk of dm & A | DThrow of dm | DUB.
Arguments DUB {A}.
Arguments DThrow {A} _.

(* Assignments to single members (state_, update_mode_, ...) (dm.hpp:207). *)
Definition set_st (s : dstate) (d : dm) := DM s (co d) (wk d).
(* dm.hpp:210-227 — assignment to the lasting members. *)
Definition set_core (c : core) (d : dm) := DM (st d) c (wk d).
(* dm.hpp:208 — update_mode_. *)
Definition set_mode (m : umode) (d : dm) := let w := wk d in
  DM (st d) (co d) (Work (Some m) (w_perm w) (w_added w) (w_impossible w) (w_removed w)
    (w_blocks w) (w_help w) (w_line w) (w_det w) (w_cd w) (w_c w)).
(* dm.hpp:230 — perm_rat_. *)
Definition set_perm_rat (p : F) (d : dm) := let w := wk d in
  DM (st d) (co d) (Work (w_mode w) (Some p) (w_added w) (w_impossible w) (w_removed w)
    (w_blocks w) (w_help w) (w_line w) (w_det w) (w_cd w) (w_c w)).
(* dm.hpp:230 — nop_added_. *)
Definition set_added (n : nat) (d : dm) := let w := wk d in
  DM (st d) (co d) (Work (w_mode w) (w_perm w) (Some n) (w_impossible w) (w_removed w)
    (w_blocks w) (w_help w) (w_line w) (w_det w) (w_cd w) (w_c w)).
(* dm.hpp:231 — update_impossible_. *)
Definition set_impossible (b : bool) (d : dm) := let w := wk d in
  DM (st d) (co d) (Work (w_mode w) (w_perm w) (w_added w) (Some b) (w_removed w)
    (w_blocks w) (w_help w) (w_line w) (w_det w) (w_cd w) (w_c w)).
(* dm.hpp:236 — removed_op_pairs_. *)
Definition set_removed (r : seq (CD * C)) (d : dm) := let w := wk d in
  DM (st d) (co d) (Work (w_mode w) (w_perm w) (w_added w) (w_impossible w) r
    (w_blocks w) (w_help w) (w_line w) (w_det w) (w_cd w) (w_c w)).
(* dm.hpp:238 — G_j_n_, G_n_j_, G_n_n_. *)
Definition set_blocks (b : option (nat * nat * fmat F * fmat F * fmat F)) (d : dm) :=
  let w := wk d in
  DM (st d) (co d) (Work (w_mode w) (w_perm w) (w_added w) (w_impossible w) (w_removed w)
    b (w_help w) (w_line w) (w_det w) (w_cd w) (w_c w)).
(* dm.hpp:239 — replace_helper_. *)
Definition set_help (h : option (nat * nat * option (fmat F * fmat F))) (d : dm) :=
  let w := wk d in
  DM (st d) (co d) (Work (w_mode w) (w_perm w) (w_added w) (w_impossible w) (w_removed w)
    (w_blocks w) h (w_line w) (w_det w) (w_cd w) (w_c w)).
(* dm.hpp:232, 238 — the new row or column and its ratio. *)
Definition set_line (l : fmat F) (r : F) (d : dm) := let w := wk d in
  DM (st d) (co d) (Work (w_mode w) (w_perm w) (w_added w) (w_impossible w) (w_removed w)
    (w_blocks w) (w_help w) (Some l) r (w_cd w) (w_c w)).
(* dm.hpp:233 — new_cdagg_, old_cdagg_. *)
Definition set_wcd (p : CD * CD) (d : dm) := let w := wk d in
  DM (st d) (co d) (Work (w_mode w) (w_perm w) (w_added w) (w_impossible w) (w_removed w)
    (w_blocks w) (w_help w) (w_line w) (w_det w) (Some p) (w_c w)).
(* dm.hpp:234 — new_c_, old_c_. *)
Definition set_wc (p : C * C) (d : dm) := let w := wk d in
  DM (st d) (co d) (Work (w_mode w) (w_perm w) (w_added w) (w_impossible w) (w_removed w)
    (w_blocks w) (w_help w) (w_line w) (w_det w) (w_cd w) (Some p)).

(* dm.ipp:12-21 — the default constructed object. *)
Definition work0 : work := Work None None None None [::] None None None 0 None None.
(* dm.ipp:12-21 — the default constructed object. *)
Definition dm_new : dm := DM waiting (Core 0 (fun _ _ => 0) 1 (side0 _ _) (side0 _ _)) work0.

(* dm.hpp:376-378 — exist(t). *)
Definition exist (c : core) (t : T) : bool :=
  (t \in unzip1 (pos (ans c))) || (t \in unzip1 (pos (cds c))).

(* dm.ipp:58-61, 91-96, 150-158 — the times of a list of operator pairs. *)
Definition pair_times (ps : seq (CD * C)) : seq T :=
  flatten [seq [:: tcd p.1; tc p.2] | p <- ps].

(* dm.ipp:53-73 — insertion_possible. *)
Definition insertion_possible (c : core) (ps : seq (CD * C)) : bool :=
  all (fun t => ~~ exist c t) (pair_times ps) && uniq (pair_times ps).

(* dm.ipp:144-177 — removal_possible; None: exception. *)
Definition removal_possible (c : core) (ps : seq (CD * C)) : option bool :=
  if all (exist c) (pair_times ps) then Some (uniq (pair_times ps)) else None.

(* dm.ipp:83-134 — removal_insertion_possible; None: exception. *)
Definition removal_insertion_possible (c : core) (rs ps : seq (CD * C)) : option bool :=
  if all (exist c) (pair_times rs) then
    Some [&& all (fun t => ~~ exist c t || (t \in pair_times rs)) (pair_times ps),
             uniq (pair_times ps) & uniq (pair_times rs)]
  else None.

(* dm.ipp:186-199 — swap_cdagg_op: rows of the inverse. *)
Definition swap_cdagg_op (i j : nat) (c : core) : core :=
  if i == j then c
  else Core (sz c) (fswap_row i j (inv c)) (- perm c) (side_swap tcd cd0 i j (cds c)) (ans c).
(* dm.ipp:208-221 — swap_c_op: columns of the inverse. *)
Definition swap_c_op (i j : nat) (c : core) : core :=
  if i == j then c
  else Core (sz c) (fswap_col i j (inv c)) (- perm c) (cds c) (side_swap tc c0 i j (ans c)).

(* dm.ipp:263, 297 — perm_diff%2==0 ? 1 : -1. *)
Definition sign_of_diff (d : nat) : F := if ~~ odd d then 1 else -1.

(* dm.ipp:240-260 — the loop of add_new_operators: perm_diff, the containers and false
   when the loop was left by an exception. *)
Fixpoint add_loop (ps : seq (CD * C)) (d : nat) (s : side T CD * side T C)
  : nat * (side T CD * side T C) * bool :=
  if ps is p :: ps' then
    let n := size (ops s.1) in
    let: (d1, scd, ok1) := side_push tcd n p.1 s.1 in
    if ~~ ok1 then (d, (scd, s.2), false)
    else
      let: (d2, sc, ok2) := side_push tc n p.2 s.2 in
      if ~~ ok2 then (d, (scd, sc), false)
      else add_loop ps' (d + d1 + d2)%N (scd, sc)
  else (d, s, true).

(* dm.ipp:233-264 — add_new_operators: returned sign, new containers, no exception. *)
Definition add_new_operators (ps : seq (CD * C)) (c : core) : F * core * bool :=
  let: (d, s, ok) := add_loop ps 0 (cds c, ans c) in
  (sign_of_diff d, Core (sz c) (inv c) (perm c) s.1 s.2, ok).

(* dm.ipp:282-295 — the loop of remove_last_operators; None: UB. *)
Fixpoint remove_loop (k : nat) (d : nat) (s : side T CD * side T C)
  : option (nat * (side T CD * side T C)) :=
  if k is k'.+1 then
    if side_pop tc s.2 is Some (d1, sc) then
      if side_pop tcd s.1 is Some (d2, scd) then remove_loop k' (d + d1 + d2)%N (scd, sc)
      else None
    else None
  else Some (d, s).

(* dm.ipp:273-298 — remove_last_operators: Throw when there are too few operators
   (nothing is changed then). *)
Definition remove_last_operators (k : nat) (c : core) : outcome (F * core) :=
  if (size (ops (cds c)) < k)%N then Throw
  else if remove_loop k 0 (cds c, ans c) is Some (d, s) then
    Ok (sign_of_diff d, Core (sz c) (inv c) (perm c) s.1 s.2)
  else UB.

(* dm.ipp:307-323 — remove_excess_operators. *)
Definition remove_excess_operators (c : core) : outcome core :=
  let k := (size (pos (cds c)) - sz c)%N in
  if (0 < k)%N && ((size (ops (cds c)) < sz c + k)%N || (size (ops (ans c)) < sz c + k)%N)
  then UB
  else Ok (Core (sz c) (inv c) (perm c) (side_excess tcd cd0 (sz c) k (cds c))
                (side_excess tc c0 (sz c) k (ans c))).

(* dm.hpp:363 — compute_g(row, col). *)
Definition compute_g (c : core) : fmat F :=
  fun i j => gf (nth c0 (ops (ans c)) i) (nth cd0 (ops (cds c)) j).

(* dm_add.ipp:33-50, dm_remove_add.ipp:74-91 — the blocks G_j_n_, G_n_j_, G_n_n_ for
   [n] old and [m] new operators. *)
Definition new_blocks (n m : nat) (c : core) : nat * nat * fmat F * fmat F * fmat F :=
  (n, m, fun i j => compute_g c i (n + j)%N, fun i j => compute_g c (n + i)%N j,
   fun i j => compute_g c (n + i)%N (n + j)%N).

(* ---- add ---- *)

(* dm_add.ipp:14-53 — try_add. *)
Definition try_add (ps : seq (CD * C)) (d : dm) : dres F :=
  if ~~ dstate_eqb (st d) waiting then DThrow d
  else
    let d1 := set_st try_add_called d in
    let c := co d in
    if ~~ insertion_possible c ps then DOk (set_blocks None d1) 0
    else
      let: (p, c1, ok) := add_new_operators ps c in
      let d2 := set_core c1 d1 in
      if ~~ ok then DThrow d2
      else
        let: (n, m, B, Cb, Db) := new_blocks (sz c) (size ps) c1 in
        DOk (set_blocks (Some (n, m, B, Cb, Db)) (set_perm_rat p d2))
            (p * det_ratio_up n m B Cb Db (inv c)).

(* dm_add.ipp:62-67 — perform_add. *)
Definition perform_add (d : dm) : dres unit :=
  if ~~ dstate_eqb (st d) try_add_called then DThrow d
  else
    let c := co d in
    if w_blocks (wk d) is Some (n, m, B, Cb, Db) then
      if w_perm (wk d) is Some p then
        if inverse_matrix_up n m B Cb Db (inv c) is Ok (n', a, _) then
          DOk (set_core (Core n' a (perm c * p) (cds c) (ans c)) (set_st waiting d)) tt
        else DUB
      else DUB
    else DUB.

(* dm_add.ipp:76-80 — reject_add. *)
Definition reject_add (d : dm) : dres unit :=
  if ~~ dstate_eqb (st d) try_add_called then DThrow d
  else if remove_excess_operators (co d) is Ok c then DOk (set_core c (set_st waiting d)) tt
  else DUB.

(* ---- remove ---- *)

(* dm_remove.ipp:29-38, dm_remove_add.ipp:38-47 — positions of the operators to be
   removed, sorted; None: std::out_of_range of map::at. *)
Definition rem_positions (c : core) (rs : seq (CD * C)) : option (seq nat * seq nat) :=
  let rc := [seq mfind (tcd p.1) (pos (cds c)) | p <- rs] in
  let rr := [seq mfind (tc p.2) (pos (ans c)) | p <- rs] in
  if all isSome rc && all isSome rr then
    Some (sort leq (pmap id rc), sort leq (pmap id rr))
  else None.

(* dm_remove.ipp:40-43, dm_remove_add.ipp:49-52 — the exchange loop. *)
Definition swap_loop (nop : nat) (rc rr : seq nat) (c : core) : core :=
  let k := size rc in
  foldl (fun c s => swap_c_op (nth 0%N rr (k - 1 - s)) (nop - 1 - s)
                      (swap_cdagg_op (nth 0%N rc (k - 1 - s)) (nop - 1 - s) c))
        c (iota 0 k).

(* dm_remove.ipp:46-57, dm_remove_add.ipp:55-66 — removed_op_pairs_. *)
Definition last_pairs (nop k : nat) (c : core) : seq (CD * C) :=
  [seq (nth cd0 (ops (cds c)) (nop - 1 - i), nth c0 (ops (ans c)) (nop - 1 - i)) | i <- iota 0 k].
(* dm_remove.ipp:55-56, dm_remove_add.ipp:64-65 — erasing them from the sets. *)
Definition erase_sets (ps : seq (CD * C)) (c : core) : core :=
  Core (sz c) (inv c) (perm c)
    (Side (ops (cds c)) (foldl (fun s p => serase p.1 s) (oset (cds c)) ps) (pos (cds c)))
    (Side (ops (ans c)) (foldl (fun s p => serase p.2 s) (oset (ans c)) ps) (pos (ans c))).

(* dm_remove.ipp:28-60 and dm_remove_add.ipp:36-70 — moving the operators to the end,
   remembering and removing them. *)
Definition take_out (rs : seq (CD * C)) (d : dm) : dres F :=
  let k := size rs in
  let nop := sz (co d) in
  if rem_positions (co d) rs is Some (rc, rr) then
    if (nop < k)%N then DUB
    else
      let c1 := swap_loop nop rc rr (co d) in
      let rem := last_pairs nop k c1 in
      let c2 := erase_sets rem c1 in
      let d2 := set_removed rem (set_core c2 d) in
      match remove_last_operators k c2 with
      | Ok (p, c3) => DOk (set_perm_rat p (set_core c3 d2)) p
      | Throw => DThrow d2
      | _ => DUB
      end
  else DThrow d.

(* dm_remove.ipp:14-63 — try_remove. *)
Definition try_remove (rs : seq (CD * C)) (d : dm) : dres F :=
  if ~~ dstate_eqb (st d) waiting then DThrow d
  else
    let d1 := set_st try_rem_called d in
    match removal_possible (co d) rs with
    | None => DThrow d1
    | Some false => DOk d1 0
    | Some true =>
      match take_out rs d1 with
      | DOk d2 p => DOk d2 (p * det_ratio_down_last (sz (co d2)) (size rs) (inv (co d2)))
      | DThrow d2 => DThrow d2
      | DUB => DUB
      end
    end.

(* dm_remove.ipp:72-79 — perform_remove. *)
Definition perform_remove (d : dm) : dres unit :=
  if ~~ dstate_eqb (st d) try_rem_called then DThrow d
  else
    let c := co d in
    let d1 := set_st waiting d in
    if w_perm (wk d) is Some p then
      match inverse_matrix_down_last (sz c) (size (w_removed (wk d))) (inv c) with
      | Ok (n', a) => DOk (set_core (Core n' a (perm c * p) (cds c) (ans c)) d1) tt
      | Throw => DThrow (set_core (Core (sz c) (inv c) (perm c * p) (cds c) (ans c)) d1)
      | _ => DUB
      end
    else DUB.

(* dm_remove.ipp:88-94 — reject_remove. *)
Definition reject_remove (d : dm) : dres unit :=
  if ~~ dstate_eqb (st d) try_rem_called then DThrow d
  else
    let: (_, c1, ok) := add_new_operators (rev (w_removed (wk d))) (co d) in
    let d1 := set_core c1 (set_st waiting d) in
    if ok then DOk d1 tt else DThrow d1.

(* ---- remove and add ---- *)

(* dm_remove_add.ipp:70-98 — the second half of try_remove_add, after the operators
   have been moved to the end. [p] is the sign of the removal. *)
Definition put_in (nop_unchanged nop_old : nat) (ps : seq (CD * C)) (p : F) (d : dm) : dres F :=
  let c := co d in
  let: (p', c1, ok) := add_new_operators ps c in
  let d1 := set_core c1 d in
  if ~~ ok then DThrow d1
  else
    let: (n, m, Q, R, Sb) := new_blocks nop_unchanged (size ps) c1 in
    let rw := replace_det_ratio n m nop_old Q R Sb (inv c) in
    DOk (set_help (Some (n, m, rw.2)) (set_added (size ps)
          (set_blocks (Some (n, m, Q, R, Sb)) (set_perm_rat (p * p') d1))))
        (p * p' * rw.1).

(* dm_remove_add.ipp:14-98 — try_remove_add. *)
Definition try_remove_add (rs ps : seq (CD * C)) (d : dm) : dres F :=
  if ~~ dstate_eqb (st d) waiting then DThrow d
  else
    let d1 := set_impossible false (set_st try_rem_add_called d) in
    match removal_insertion_possible (co d) rs ps with
    | None => DThrow d1
    | Some false => DOk (set_help None (set_impossible true d1)) 0
    | Some true =>
      let nop := sz (co d) in
      if (0 < size rs)%N then
        match take_out rs d1 with
        | DOk d2 p => put_in (nop - size rs) (size rs) ps p d2
        | DThrow d2 => DThrow d2
        | DUB => DUB
        end
      else put_in nop 0 ps 1 d1
    end.

(* dm_remove_add.ipp:107-116 — perform_remove_add: the inverse is computed before the
   state is checked. *)
Definition perform_remove_add (d : dm) : dres unit :=
  let c := co d in
  if w_help (wk d) is Some (n, m, h) then
    if w_blocks (wk d) is Some (_, _, Q, R, Sb) then
      if replace_inverse_matrix n m Q R Sb h is Ok (n', a) then
        let c1 := Core n' a (perm c) (cds c) (ans c) in
        if ~~ dstate_eqb (st d) try_rem_add_called then DThrow (set_core c1 d)
        else
          let d1 := set_core c1 (set_st waiting d) in
          if w_impossible (wk d) is Some b then
            if b then DOk d1 tt
            else if w_perm (wk d) is Some p then
              DOk (set_core (Core n' a (perm c * p) (cds c) (ans c)) d1) tt
            else DUB
          else DUB
      else DUB
    else DUB
  else DUB.

(* dm_remove_add.ipp:125-136 — reject_remove_add. *)
Definition reject_remove_add (d : dm) : dres unit :=
  if ~~ dstate_eqb (st d) try_rem_add_called then DThrow d
  else
    let d1 := set_st waiting d in
    if w_added (wk d) is Some k then
      match remove_last_operators k (co d) with
      | Ok (_, c1) =>
        let: (_, c2, ok) := add_new_operators (rev (w_removed (wk d))) c1 in
        if ok then DOk (set_core c2 d1) tt else DThrow (set_core c2 d1)
      | Throw => DThrow d1
      | _ => DUB
      end
    else DUB.

(* ---- replace one operator ---- *)

(* dm_replace.ipp:36-44, 119-127 — the permutation sign of a replacement. *)
Definition replace_sign (old new : T) (m : tmap T) : F :=
  let a := mlower old m in
  let b := mlower new m in
  let diff := ((a - b) + (b - a))%N in
  let p : F := if ~~ odd diff then 1 else -1 in
  if (old < new)%O then - p else p.

(* dm_replace.ipp:13-51 — try_replace_cdagg. *)
Definition try_replace_cdagg (old new : CD) (d : dm) : dres F :=
  if ~~ dstate_eqb (st d) waiting then DThrow d
  else
    let d1 := set_wcd (old, new) (set_st try_replace_cdagg_called d) in
    let nop := sz (co d) in
    if mfind (tcd old) (pos (cds (co d))) is Some p then
      let c1 := swap_cdagg_op p (nop - 1) (co d) in
      let col : fmat F := fun i _ => gf (nth c0 (ops (ans c1)) i) new in
      let s := replace_sign (tcd old) (tcd new) (pos (cds c1)) in
      let r := det_ratio_last_col nop (inv c1) col in
      DOk (set_line col r (set_perm_rat s (set_core c1 d1))) (s * r)
    else DThrow d1.

(* dm_replace.ipp:60-74 — perform_replace_cdagg. *)
Definition perform_replace_cdagg (d : dm) : dres unit :=
  if ~~ dstate_eqb (st d) try_replace_cdagg_called then DThrow d
  else
    let c := co d in
    if (w_line (wk d), w_perm (wk d), w_cd (wk d)) is (Some col, Some p, Some (old, new)) then
      DOk (set_core (Core (sz c) (inverse_last_col (sz c) (inv c) col (w_det (wk d)))
                      (perm c * p) (side_replace tcd cd0 (sz c) old new (cds c)) (ans c))
            (set_st waiting d)) tt
    else DUB.

(* dm_replace.ipp:83-87 — reject_replace_cdagg. *)
Definition reject_replace_cdagg (d : dm) : dres unit :=
  if ~~ dstate_eqb (st d) try_replace_cdagg_called then DThrow d
  else DOk (set_st waiting d) tt.

(* dm_replace.ipp:96-131 — try_replace_c. *)
Definition try_replace_c (old new : C) (d : dm) : dres F :=
  if ~~ dstate_eqb (st d) waiting then DThrow d
  else
    let d1 := set_wc (old, new) (set_st try_replace_c_called d) in
    let nop := sz (co d) in
    if mfind (tc old) (pos (ans (co d))) is Some p then
      let c1 := swap_c_op p (nop - 1) (co d) in
      let row : fmat F := fun _ j => gf new (nth cd0 (ops (cds c1)) j) in
      let s := replace_sign (tc old) (tc new) (pos (ans c1)) in
      let r := det_ratio_last_row nop (inv c1) row in
      DOk (set_line row r (set_perm_rat s (set_core c1 d1))) (s * r)
    else DThrow d1.

(* dm_replace.ipp:140-154 — perform_replace_c. *)
Definition perform_replace_c (d : dm) : dres unit :=
  if ~~ dstate_eqb (st d) try_replace_c_called then DThrow d
  else
    let c := co d in
    if (w_line (wk d), w_perm (wk d), w_c (wk d)) is (Some row, Some p, Some (old, new)) then
      DOk (set_core (Core (sz c) (inverse_last_row (sz c) (inv c) row (w_det (wk d)))
                      (perm c * p) (cds c) (side_replace tc c0 (sz c) old new (ans c)))
            (set_st waiting d)) tt
    else DUB.

(* dm_replace.ipp:163-167 — reject_replace_c. *)
Definition reject_replace_c (d : dm) : dres unit :=
  if ~~ dstate_eqb (st d) try_replace_c_called then DThrow d
  else DOk (set_st waiting d) tt.

(* ---- the public interface ---- *)

(* dm.ipp:468-481 — to_operator_pairs reads n operators of either range; reading past
   the end of a range is UB (None). *)
Definition to_operator_pairs (a : seq CD) (b : seq C) (n : nat) : option (seq (CD * C)) :=
  if (size a < n)%N || (size b < n)%N then None else Some (take n (zip a b)).

(* dm.ipp:492-553 — try_update. *)
Definition try_update (rcd : seq CD) (rc : seq C) (acd : seq CD) (ac : seq C) (d : dm) : dres F :=
  if (size acd + size rc != size ac + size rcd)%N then DOk (set_mode invalid_operation d) 0
  else if [&& size acd == 0, size rcd == 0, size ac == 0 & size rc == 0]%N
  then DOk (set_mode do_nothing d) 1
  else if [&& size acd == 1, size rcd == 1, size ac == 0 & size rc == 0]%N
  then try_replace_cdagg (head cd0 rcd) (head cd0 acd) (set_mode m_replace_cdagg d)
  else if [&& size acd == 0, size rcd == 0, size ac == 1 & size rc == 1]%N
  then try_replace_c (head c0 rc) (head c0 ac) (set_mode m_replace_c d)
  else if [&& 0 < size acd, size rcd == 0, 0 < size ac & size rc == 0]%N
  then if to_operator_pairs acd ac (size acd) is Some ps
       then try_add ps (set_mode m_add d) else DUB
  else if [&& size acd == 0, 0 < size rcd, size ac == 0 & 0 < size rc]%N
  then if to_operator_pairs rcd rc (size rcd) is Some rs
       then try_remove rs (set_mode m_rem d) else DUB
  else if to_operator_pairs acd ac (size acd) is Some ps
       then if to_operator_pairs rcd rc (size rcd) is Some rs
            then try_remove_add rs ps (set_mode m_rem_add d) else DUB
       else DUB.

(* dm.ipp:562-591 — perform_update; reading the uninitialised update_mode_ is UB. *)
Definition perform_update (d : dm) : dres unit :=
  match w_mode (wk d) with
  | Some do_nothing | Some invalid_operation => DOk d tt
  | Some m_replace_cdagg => perform_replace_cdagg d
  | Some m_replace_c => perform_replace_c d
  | Some m_add => perform_add d
  | Some m_rem => perform_remove d
  | Some m_rem_add => perform_remove_add d
  | None => DUB
  end.

(* dm.ipp:600-628 — reject_update. *)
Definition reject_update (d : dm) : dres unit :=
  match w_mode (wk d) with
  | Some do_nothing | Some invalid_operation => DOk d tt
  | Some m_replace_cdagg => reject_replace_cdagg d
  | Some m_replace_c => reject_replace_c d
  | Some m_add => reject_add d
  | Some m_rem => reject_remove d
  | Some m_rem_add => reject_remove_add d
  | None => DUB
  end.

(* dm.ipp:30-43 — construction from a list of operator pairs. *)
Definition dm_new_ops (ps : seq (CD * C)) : dres unit :=
  match try_add ps dm_new with
  | DOk d _ => perform_add d
  | DThrow d => DThrow d
  | DUB => DUB
  end.

(* dm.hpp:133-135 — compute_determinant. *)
Definition compute_determinant (d : dm) : F := perm (co d) / fdet (sz (co d)) (inv (co d)).

(* dm.ipp:408-422 — compute_G_matrix. *)
Definition compute_G_matrix (d : dm) : dres (fmat F) :=
  if ~~ dstate_eqb (st d) waiting then DThrow d else DOk d (compute_g (co d)).

(* dm.ipp:382-400 — rebuild_inverse_matrix. *)
Definition rebuild_inverse_matrix (d : dm) : dres unit :=
  if ~~ dstate_eqb (st d) waiting then DThrow d
  else
    let c := co d in
    let n := size (ops (cds c)) in
    DOk (set_core (Core n (finv n (compute_g c)) (perm c) (cds c) (ans c)) d) tt.

End DetMat.
Arguments DUB {F disp T CD C A}.
Arguments DThrow {F disp T CD C A} _.
Arguments DOk {F disp T CD C A} _ _.
