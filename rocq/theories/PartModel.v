(* Model of /repo/include/alps/fastupdate/determinant_matrix_partitioned.hpp ("dmp.hpp")
   and detail/determinant_matrix_partitioned.ipp ("dmp.ipp").
   Simplifications:
   - numbers live in an arbitrary field, times in an arbitrary total order, and the
     int signs permutation_ and new_perm_ are the field elements 1 and -1;
   - "time-ordered set" (dmp.hpp:389): operator< of the operators compares their times,
     so a set is a list without two operators at the same time; iteration order is not
     modelled;
   - an exception leaves no object behind (Throw);
   - state_ and singular_ never change (dmp.ipp:17-18, 41-42), so they are left out;
   - sanity_check (dmp.ipp:277-340) is empty in the release build. *)
From mathcomp Require Import all_ssreflect ssralg matrix order.
From Verif Require Import Outcome ClusterModel MatLib DetMatModel.

Set Implicit Arguments.
Unset Strict Implicit.
Unset Printing Implicit Defensive.

Local Open Scope ring_scope.

(* ---- time-ordered sets, whole and by sector ---- *)
Section Sets.
Variables (F : fieldType) (disp : unit) (T : orderType disp) (O : eqType) (tm : O -> T).

(* multi_index_container::insert(t) and ::erase(key), dmp.ipp:125-126, 137-138. *)
Definition tinsert (o : O) (s : seq O) : seq O := if tm o \in map tm s then s else o :: s.
(* dmp.ipp:125-126 — erase(key). *)
Definition terase (o : O) (s : seq O) : seq O := [seq x <- s | tm x != tm o].
(* std::distance(set.lower_bound(t), set.end()), dmp.ipp:120, 124, 132, 136. *)
Definition tlower (o : O) (s : seq O) : nat := count (fun x => ~~ (tm x < tm o)%O) s.

(* dmp.hpp:392-396 — cdagg_times_set_ and cdagg_times_sectored_set_ (c_...). *)
Record sets := Sets { whole : seq O; sectored : seq (seq O) }.

(* dmp.ipp:120-124, 132-136 — num_ops. *)
Definition num_ops (o : O) (sector : nat) (s : sets) : nat :=
  (tlower o (whole s) + sumn (map size (drop sector.+1 (sectored s)))
   + tlower o (nth [::] (sectored s) sector))%N.

(* dmp.ipp:119-128 — erase_and_compute_perm_sign_change. *)
Definition erase_sign_change (o : O) (sector : nat) (s : sets) : F * sets :=
  (sign_of_diff F (num_ops o sector s),
   Sets (terase o (whole s))
        (set_nth [::] (sectored s) sector (terase o (nth [::] (sectored s) sector)))).

(* dmp.ipp:131-140 — insert_and_compute_perm_sign_change. *)
Definition insert_sign_change (o : O) (sector : nat) (s : sets) : F * sets :=
  (sign_of_diff F (num_ops o sector s),
   Sets (tinsert o (whole s))
        (set_nth [::] (sectored s) sector (tinsert o (nth [::] (sectored s) sector)))).

(* sector_belonging_to_[operator_flavor(o)], dmp.ipp:161, 168, 175, 182. *)
Variables (labels : seq nat) (fl : O -> nat).
(* dmp.ipp:161, 168, 175, 182 — the sector of an operator. *)
Definition sector_of (o : O) : nat := nth 0%N labels (fl o).

(* dmp.ipp:160-164, 167-171, 174-178, 181-185 — one of the four loops of try_update: the
   lists of operators by sector, the sign and the sets afterwards. *)
Definition sign_loop (f : O -> nat -> sets -> F * sets)
    (l : seq O) (w : seq (seq O)) (p : F) (s : sets) : seq (seq O) * F * sets :=
  foldl (fun acc o =>
    let: (w, p, s) := acc in
    let k := sector_of o in
    let r := f o k s in
    (set_nth [::] w k (rcons (nth [::] w k) o), p * r.1, r.2)) (w, p, s) l.

(* dmp.ipp:238-243, 245-250 — erase the operators of the lists of one kind again;
   dmp.ipp:252-257, 259-264 — insert them again. *)
Definition revert_loop (f : O -> seq O -> seq O) (ns : nat) (w : seq (seq O)) (s : sets) : sets :=
  foldl (fun s k =>
    foldl (fun s o => Sets (f o (whole s))
                           (set_nth [::] (sectored s) k (f o (nth [::] (sectored s) k))))
          s (nth [::] w k)) s (iota 0 ns).

End Sets.

Section Part.
Variables (F : fieldType) (disp : unit) (T : orderType disp).
(* CdaggerOp, COp, operator_time, operator_flavor and the Green function, dmp.hpp:19-26. *)
Variables (CD C : eqType) (tcd : CD -> T) (tc : C -> T) (cd0 : CD) (c0 : C).
Variables (fcd : CD -> nat) (fc : C -> nat).
Variable gf : C -> CD -> F.
Notation dm := (dm F T CD C).

(* dmp.hpp:367-403 — the object. *)
Record pdm := PDM {
  p_flavors : nat;                     (* num_flavors_ *)
  p_members : seq (seq nat);           (* sector_members_ *)
  p_labels : seq nat;                  (* sector_belonging_to_ *)
  p_dets : seq dm;                     (* det_mat_, one per sector *)
  p_perm : F;                          (* permutation_ *)
  p_ocd : seq CD; p_oc : seq C;        (* cdagg_ops_actual_order_, c_ops_actual_order_ *)
  p_cd : sets CD; p_c : sets C;        (* cdagg_times_..., c_times_... *)
  p_new : option F;                    (* new_perm_, None: uninitialised *)
  p_rcd : seq (seq CD); p_rc : seq (seq C);    (* cdagg_ops_rem_, c_ops_rem_ *)
  p_acd : seq (seq CD); p_ac : seq (seq C) }.  (* cdagg_ops_add_, c_ops_add_ *)

(* num_sectors_, dmp.ipp:85. *)
Definition num_sectors (p : pdm) : nat := size (p_members p).

(* dmp.ipp:75-84 — the pairs of flavors connected in the loop of init. *)
Definition connections (N : nat) (connected : nat -> nat -> bool) : seq (nat * nat) :=
  flatten [seq [seq (f, f2) | f2 <- iota 0 f & connected f f2] | f <- iota 0 N].

(* dmp.ipp:12-24, 72-114 — the default constructed object; the sanity check of lines
   92-99 consists of assertions. *)
Definition pdm_new (N : nat) (connected : nat -> nat -> bool) : outcome pdm :=
  obind (clustering N (connections N connected)) (fun r =>
  let: (labels, members) := r in
  let ns := size members in
  Ok (PDM N members labels (nseq ns (dm_new F T CD C)) 1 [::] [::]
          (Sets [::] (nseq ns [::])) (Sets [::] (nseq ns [::])) None
          (nseq N [::]) (nseq N [::]) (nseq N [::]) (nseq N [::]))).

(* for (sector=0; sector<num_sectors_; ++sector) over det_mat_, dmp.ipp:191, 211, 232:
   apply a member function to each block, collecting the values. *)
Fixpoint sector_loop (A : Type) (f : nat -> dm -> dres F T CD C A) (s : nat) (ds : seq dm)
  : outcome (seq dm * seq A) :=
  if ds is d :: ds' then
    match f s d with
    | DOk d' a => obind (sector_loop f s.+1 ds') (fun r => Ok (d' :: r.1, a :: r.2))
    | DThrow _ => Throw
    | DUB => UB
    end
  else Ok ([::], [::]).

(* dmp.hpp:422-437 — reconstruct_operator_list_in_actual_order. *)
Definition ops_in_actual_order (ds : seq dm) : seq CD * seq C :=
  (flatten [seq ops (cds (co d)) | d <- ds], flatten [seq ops (ans (co d)) | d <- ds]).

(* dmp.ipp:151-201 — try_update; an operator with an unknown flavor is UB. *)
Definition p_try (rcd : seq CD) (rc : seq C) (acd : seq CD) (ac : seq C) (p : pdm)
  : outcome (pdm * F) :=
  if ~~ all (fun o => fcd o < size (p_labels p))%N (rcd ++ acd)
     || ~~ all (fun o => fc o < size (p_labels p))%N (rc ++ ac) then UB
  else
    let: (wrcd, s1, cd1) := sign_loop (p_labels p) fcd (@erase_sign_change F _ _ _ tcd)
                              rcd (p_rcd p) 1 (p_cd p) in
    let: (wrc, s2, c1) := sign_loop (p_labels p) fc (@erase_sign_change F _ _ _ tc)
                              rc (p_rc p) s1 (p_c p) in
    let: (wacd, s3, cd2) := sign_loop (p_labels p) fcd (@insert_sign_change F _ _ _ tcd)
                              acd (p_acd p) s2 cd1 in
    let: (wac, s4, c2) := sign_loop (p_labels p) fc (@insert_sign_change F _ _ _ tc)
                              ac (p_ac p) s3 c1 in
    obind (sector_loop (fun s => try_update tcd tc cd0 c0 gf (nth [::] wrcd s) (nth [::] wrc s)
                                   (nth [::] wacd s) (nth [::] wac s)) 0 (p_dets p)) (fun r =>
    Ok (PDM (p_flavors p) (p_members p) (p_labels p) r.1 (p_perm p) (p_ocd p) (p_oc p) cd2 c2
            (Some (s4 * p_perm p)) wrcd wrc wacd wac,
        foldl *%R 1 r.2 * s4)).

(* dmp.hpp:405-412 — clear_work: the lists of the first num_sectors_ entries. *)
Definition clear_lists (A : Type) (ns : nat) (w : seq (seq A)) : seq (seq A) :=
  nseq ns [::] ++ drop ns w.

(* dmp.ipp:210-222 — perform_update; reading the uninitialised new_perm_ is UB. *)
Definition p_perform (p : pdm) : outcome pdm :=
  obind (sector_loop (fun _ => perform_update tcd tc cd0 c0) 0 (p_dets p)) (fun r =>
  if p_new p is Some np then
    let o := ops_in_actual_order r.1 in
    let ns := num_sectors p in
    Ok (PDM (p_flavors p) (p_members p) (p_labels p) r.1 np o.1 o.2 (p_cd p) (p_c p) (p_new p)
            (clear_lists ns (p_rcd p)) (clear_lists ns (p_rc p))
            (clear_lists ns (p_acd p)) (clear_lists ns (p_ac p)))
  else UB).

(* dmp.ipp:231-268 — reject_update. *)
Definition p_reject (p : pdm) : outcome pdm :=
  obind (sector_loop (fun _ => reject_update tcd tc cd0 c0) 0 (p_dets p)) (fun r =>
  let ns := num_sectors p in
  let cd := revert_loop (tinsert tcd) ns (p_rcd p) (revert_loop (terase tcd) ns (p_acd p) (p_cd p)) in
  let c := revert_loop (tinsert tc) ns (p_rc p) (revert_loop (terase tc) ns (p_ac p) (p_c p)) in
  let o := ops_in_actual_order r.1 in
  Ok (PDM (p_flavors p) (p_members p) (p_labels p) r.1 (p_perm p) o.1 o.2 cd c (p_new p)
          (clear_lists ns (p_rcd p)) (clear_lists ns (p_rc p))
          (clear_lists ns (p_acd p)) (clear_lists ns (p_ac p)))).

(* dmp.ipp:33-63 — construction from a list of operator pairs. *)
Definition pdm_new_ops (N : nat) (connected : nat -> nat -> bool) (ps : seq (CD * C)) : outcome pdm :=
  obind (pdm_new N connected) (fun p =>
  obind (p_try [::] [::] (unzip1 ps) (unzip2 ps) p) (fun r => p_perform r.1)).

(* dmp.hpp:187-196 — compute_determinant. *)
Definition p_determinant (p : pdm) : F :=
  p_perm p * foldl *%R 1 [seq compute_determinant d | d <- p_dets p].

(* dmp.hpp:220-234 — compute_inverse_matrix: the inverses of the blocks on the diagonal,
   zero elsewhere. *)
Fixpoint block_diagonal (ds : seq dm) : fmat F :=
  if ds is d :: ds' then
    let n := sz (co d) in
    fun i j => if (i < n)%N && (j < n)%N then inv (co d) i j
               else if (n <= i)%N && (n <= j)%N then block_diagonal ds' (i - n)%N (j - n)%N
               else 0
  else fun _ _ => 0.
(* dmp.hpp:220-234 — compute_inverse_matrix. *)
Definition p_inverse (p : pdm) : fmat F := block_diagonal (p_dets p).

(* dmp.hpp:103 — size. *)
Definition p_size (p : pdm) : nat := size (whole (p_cd p)).

(* dmp.hpp:278-282 — rebuild_inverse_matrix. *)
Definition p_rebuild (p : pdm) : outcome pdm :=
  obind (sector_loop (fun _ => rebuild_inverse_matrix cd0 c0 gf) 0 (p_dets p)) (fun r =>
  Ok (PDM (p_flavors p) (p_members p) (p_labels p) r.1 (p_perm p) (p_ocd p) (p_oc p)
          (p_cd p) (p_c p) (p_new p) (p_rcd p) (p_rc p) (p_acd p) (p_ac p))).

End Part.
