(* Model of /repo/include/alps/fastupdate/detail/clustering.hpp (class Clustering).
   The state is the array cluster_alias_; cluster_belonging_to_ is written once
   by the constructor and never read.  The assertions on done_labeling and on index
   ranges are compiled out by the release flags, so an out-of-range index is UB. *)
From mathcomp Require Import all_ssreflect.
From Verif Require Import Outcome.

Set Implicit Arguments.
Unset Strict Implicit.
Unset Printing Implicit Defensive.

(* clustering.hpp:11-21 — constructor: every vertex is its own cluster. *)
Definition clus_init (N : nat) : seq nat := iota 0 N.

(* clustering.hpp:99-102 — "while (c_label_tmp != cluster_alias_[c_label_tmp])",
   collecting the visited labels.  The range check models vector::operator[]. *)
Fixpoint chase (fuel : nat) (al : seq nat) (c : nat) (visited : seq nat)
  : outcome (nat * seq nat) :=
  if fuel is fuel'.+1 then
    if size al <= c then UB
    else if c == nth 0 al c then Ok (c, visited)
    else chase fuel' al (nth 0 al c) (rcons visited c)
  else Diverge.

(* clustering.hpp:90-107 — get_true_label: the label and the array after path
   compression (lines 103-105).  The early return of lines 93-95 is the case of
   no visited label.  The number of loop iterations is bounded by the fuel
   size al + 1; exceeding it is reported as Diverge. *)
Definition get_true_label (al : seq nat) (c : nat) : outcome (nat * seq nat) :=
  obind (chase (size al).+1 al c [::]) (fun r =>
    Ok (r.1, foldl (fun a h => set_nth 0 a h r.1) al r.2)).

(* clustering.hpp:24-36 — connect_vertices. *)
Definition connect_vertices (al : seq nat) (v1 v2 : nat) : outcome (seq nat) :=
  if size al <= v1 then UB else
  obind (get_true_label al (nth 0 al v1)) (fun r1 =>
  let: (c1, al1) := r1 in
  if size al1 <= v2 then UB else
  obind (get_true_label al1 (nth 0 al1 v2)) (fun r2 =>
  let: (c2, al2) := r2 in
  if c1 == c2 then Ok al2
  else if c1 < c2 then Ok (set_nth 0 al2 c2 c1)
  else Ok (set_nth 0 al2 c1 c2))).

(* clustering.hpp:43-49 — loop body for vertex i: resolve the label, store it and
   collect the labels in order of first appearance ("flag"). *)
Definition resolve_step (st : outcome (seq nat * seq nat)) (i : nat)
  : outcome (seq nat * seq nat) :=
  obind st (fun s =>
  let: (al, valid) := s in
  obind (get_true_label al i) (fun r =>
  let: (c, al1) := r in
  Ok (set_nth 0 al1 i c, if c \in valid then valid else rcons valid c))).

(* clustering.hpp:39-66 — finalize_labeling: cluster_labels_ and
   cluster_members.  label_map[valid_labels[l]] = l is [index] in valid_labels. *)
Definition finalize_labeling (N : nat) (al : seq nat)
  : outcome (seq nat * seq (seq nat)) :=
  obind (foldl resolve_step (Ok (al, [::])) (iota 0 N)) (fun s =>
  let: (al', valid) := s in
  let labels := [seq index (nth 0 al' i) valid | i <- iota 0 N] in
  let members := foldl (fun m i =>
      let l := nth 0 labels i in set_nth [::] m l (rcons (nth [::] m l) i))
    (nseq (size valid) [::]) (iota 0 N) in
  Ok (labels, members)).

(* Whole use of the class: construct, connect, label
   (clustering.hpp:11-66 called in sequence). *)
Definition clustering (N : nat) (ops : seq (nat * nat))
  : outcome (seq nat * seq (seq nat)) :=
  obind (foldl (fun st p => obind st (fun al => connect_vertices al p.1 p.2))
               (Ok (clus_init N)) ops)
        (finalize_labeling N).
