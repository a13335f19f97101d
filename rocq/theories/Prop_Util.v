(* Property theorems: C01-C05 (sign routines, clustering, grouping). *)
From mathcomp Require Import all_ssreflect ssralg ssrint fingroup perm.
From Verif Require Import Outcome SortModel SortSpec SortProofs.
From Verif Require Import ClusterModel ClusterSpec ClusterProofs.
From Verif Require Import GroupModel GroupSpec GroupProofs.

Set Implicit Arguments.
Unset Strict Implicit.
Unset Printing Implicit Defensive.

Local Open Scope ring_scope.

(* ------------------------------------------------------------------ C01 *)

(* For distinct elements the routine terminates (any fuel above the number of
   inversions suffices) and returns the parity of the number of inversions. *)
Theorem C01_permutation_sign :
  forall (T : eqType) (lt : rel T), strict_total lt ->
  forall (l : seq T) (fuel : nat), uniq l -> (inversions lt l < fuel)%N ->
    permutation_sign lt fuel l = Ok ((-1) ^+ inversions lt l).
Proof.
by move=> T lt [irr tr tot] l fuel; apply: permutation_sign_ok.
Qed.
Print Assumptions C01_permutation_sign.

(* The returned sign is the sign of the permutation: for a strictly increasing
   family f and a permutation s, the sequence f(s 0), f(s 1), ... has sign (-1)^s. *)
Theorem C01_permutation_sign_is_group_sign :
  forall (T : eqType) (lt : rel T), strict_total lt ->
  forall (n : nat) (f : 'I_n -> T) (s : 'S_n),
    (forall i j : 'I_n, (i < j)%N -> lt (f i) (f j)) ->
    exists fuel0, forall fuel, (fuel0 <= fuel)%N ->
      permutation_sign lt fuel [seq f (s i) | i <- enum 'I_n] = Ok ((-1) ^+ s).
Proof. by move=> T lt st n f s inc; apply: permutation_sign_group. Qed.
Print Assumptions C01_permutation_sign_is_group_sign.

Example C01_case :
  strict_total ltn /\ uniq [:: 3; 1; 2]%N /\ inversions ltn [:: 3; 1; 2]%N = 2%N /\
  permutation_sign ltn 9 [:: 3; 1; 2]%N = Ok 1 /\
  permutation_sign ltn 9 [:: 3; 2; 1]%N = Ok (-1).
Proof. by split; [exact: ltn_strict_total | do !split]. Qed.

(* ------------------------------------------------------------------ C02 *)

(* No amount of iterations is enough as soon as two elements are equal. *)
Theorem C02_permutation_never_returns_on_duplicates :
  forall (T : eqType) (lt : rel T), strict_total lt ->
  forall (l : seq T), ~~ uniq l ->
  forall fuel : nat, permutation_sign lt fuel l = Diverge.
Proof. by move=> T lt [irr tr _] l nu fuel; apply: bubble_loop_dup. Qed.
Print Assumptions C02_permutation_never_returns_on_duplicates.

(* The claim "terminates for every finite sequence" is false. *)
Theorem C02_permutation_terminates_refuted :
  exists l : seq nat, forall fuel : nat, permutation_sign ltn fuel l = Diverge.
Proof.
by exists [:: 5; 5]%N => fuel; apply: (bubble_loop_dup ltnn ltn_trans).
Qed.
Print Assumptions C02_permutation_terminates_refuted.

(* ------------------------------------------------------------------ C03 *)

Theorem C03_comb_sort :
  forall (T : eqType) (lt : rel T), strict_total lt ->
  forall (l : seq T) (x0 : T) (fuel : nat),
    (0 < size l)%N -> (size l + size l * size l + 1 < fuel)%N ->
    exists l' sg,
      [/\ comb_sort lt fuel x0 l = Ok (l', sg), perm_eq l' l,
          sorted (fun x y => ~~ lt y x) l' &
          uniq l -> sg = (-1) ^+ inversions lt l].
Proof. by move=> T lt [irr tr tot] l x0 fuel; apply: comb_sort_ok. Qed.
Print Assumptions C03_comb_sort.

(* The empty sequence is outside the contract: the iterator is moved past the end. *)
Theorem C03_comb_sort_empty_refuted :
  exists fuel0, forall fuel, (fuel0 <= fuel)%N ->
    comb_sort ltn fuel 0%N [::] = UB.
Proof. by exists 2%N => fuel; apply: comb_sort_empty. Qed.
Print Assumptions C03_comb_sort_empty_refuted.

Example C03_case :
  comb_sort ltn 40 0%N [:: 4; 1; 3; 0; 2]%N = Ok ([:: 0; 1; 2; 3; 4]%N, -1) /\
  inversions ltn [:: 4; 1; 3; 0; 2]%N = 7%N.
Proof. by vm_compute. Qed.

(* ------------------------------------------------------------------ C04 *)

Theorem C04_clustering :
  forall (N : nat) (ops : seq (nat * nat)),
    all (fun p => (p.1 < N) && (p.2 < N))%N ops ->
    exists labels members,
      clustering N ops = Ok (labels, members) /\
      good_clustering N ops labels members.
Proof. exact: clustering_ok. Qed.
Print Assumptions C04_clustering.

Example C04_case :
  clustering 6 [:: (5, 3); (4, 1); (3, 1)]%N =
    Ok ([:: 0; 1; 2; 1; 1; 1]%N, [:: [:: 0]; [:: 1; 3; 4; 5]; [:: 2]]%N).
Proof. by []. Qed.

(* ------------------------------------------------------------------ C05 *)

(* The claim is false for symmetric but non-transitive connectivity: three sites with
   0-2 and 1-2 connected; 1 and 2 end up in different groups. *)
Theorem C05_groups_decoupled_refuted :
  exists (N : nat) (connected : nat -> nat -> bool),
    (forall i j, connected i j = connected j i) /\
    ~ decoupled N connected (make_groups N connected).2.
Proof.
pose c (i j : nat) := ((i == 2) && (j < 2) || (j == 2) && (i < 2))%N.
exists 3%N, c; split; first by move=> i j; rewrite /c orbC.
by move=> /(_ 1%N 2%N isT isT isT).
Qed.
Print Assumptions C05_groups_decoupled_refuted.

(* What does hold: the result is always a partition of the sites, and it is decoupled
   when connectivity is already transitive.  Missing: the general case, which is false. *)
Theorem C05_groups_decoupled_partial :
  forall (N : nat) (connected : nat -> nat -> bool),
    (forall i j, (i < N)%N -> (j < N)%N -> connected i j = connected j i) ->
    (forall i j k, (i < N)%N -> (j < N)%N -> (k < N)%N ->
        connected i j -> connected j k -> connected i k) ->
    decoupled N connected (make_groups N connected).2 /\
    partition_of N (make_groups N connected).1 (make_groups N connected).2.
Proof.
move=> N c sy tr; split; first exact: make_groups_decoupled.
by have := make_groups_partition N c; case: make_groups.
Qed.
Print Assumptions C05_groups_decoupled_partial.

Example C05_case :
  make_groups 4 (fun i j => odd i == odd j) = ([:: [:: 0; 2]; [:: 1; 3]], [:: 0; 1; 0; 1])%N.
Proof. by []. Qed.

(* The connectivity matrix itself is read with its indices in the wrong order: with more
   sites than flavors the table is read out of range. *)
Theorem C05_connectivity_lookup_refuted :
  exists (n_flavor n_site : nat) (nz : nat -> nat -> nat -> bool) flavor site1 site2,
    [/\ (flavor < n_flavor)%N, (site1 < n_site)%N, (site2 < n_site)%N &
        connected_entry n_flavor n_site nz flavor site1 site2 = UB].
Proof. by exists 1%N, 2%N, (fun _ _ _ => true), 0%N, 1%N, 1%N. Qed.
Print Assumptions C05_connectivity_lookup_refuted.
