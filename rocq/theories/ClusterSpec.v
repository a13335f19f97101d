(* Specification of clustering: connected components, numbered by their smallest vertex. *)
From mathcomp Require Import all_ssreflect.

Set Implicit Arguments.
Unset Strict Implicit.
Unset Printing Implicit Defensive.

(* Linked by a chain of connect calls. *)
Inductive linked (ops : seq (nat * nat)) : nat -> nat -> Prop :=
  | linked_refl v : linked ops v v
  | linked_op v w : (v, w) \in ops -> linked ops v w
  | linked_sym v w : linked ops v w -> linked ops w v
  | linked_trans u v w : linked ops u v -> linked ops v w -> linked ops u w.

(* [v] is the smallest vertex of its component. *)
Definition smallest (ops : seq (nat * nat)) (v : nat) : Prop :=
  forall w, linked ops v w -> v <= w.

(* [labels] and [members] are the result the user expects for N vertices. *)
Definition good_clustering (N : nat) (ops : seq (nat * nat))
    (labels : seq nat) (members : seq (seq nat)) : Prop :=
  [/\ size labels = N,
      (* same label iff linked *)
      forall i j, i < N -> j < N ->
        (nth 0 labels i = nth 0 labels j <-> linked ops i j),
      (* the first vertices of the clusters are numbered 0, 1, 2, ... in order *)
      exists firsts : seq nat,
        [/\ sorted ltn firsts,
            forall v, v \in firsts <-> v < N /\ smallest ops v,
            size members = size firsts &
            forall c, c < size firsts -> nth 0 labels (nth 0 firsts c) = c],
      (* every label names a cluster *)
      forall i, i < N -> nth 0 labels i < size members &
      (* the member lists are the vertices with that label, in increasing order *)
      forall c, c < size members ->
        nth [::] members c = [seq i <- iota 0 N | nth 0 labels i == c]].
