(* Specification vocabulary for the interaction input and the vertex list. *)
From mathcomp Require Import all_ssreflect ssralg ssrnum ssrint.
From Verif Require Import SubModel UMatModel.

Set Implicit Arguments.
Unset Strict Implicit.
Unset Printing Implicit Defensive.

Local Open Scope ring_scope.

Section Spec.
Variables (F : numFieldType) (C : Type).

(* One interaction term as written in the input file. *)
Record term := Term {
  t_idx : nat;              (* first column *)
  t_flavors : seq nat;      (* one per pair of operators *)
  t_sites : seq nat;        (* two per pair of operators *)
  t_naf : nat;
  t_U : C;
  t_alpha : seq (seq C) }.  (* for every pair, one per auxiliary-field state *)
Definition t_rank (t : term) : nat := size (t_flavors t).

(* numbers of columns fit, numbers fit into the machine types *)
Definition wf_term (m64 m32 maxel : nat) (t : term) : bool :=
  [&& size (t_sites t) == (2 * t_rank t)%N, size (t_alpha t) == t_rank t,
      all (fun l => size l == t_naf t) (t_alpha t),
      all (fun x => x < m64)%N [:: t_idx t, t_rank t, t_naf t & t_sites t],
      all (fun x => x < m32)%N (t_flavors t) &
      [&& t_rank t <= maxel, t_naf t * t_rank t <= maxel & t_naf t * t_rank t < m64]%N].
Definition in_range (ns nf : nat) (t : term) : bool :=
  all (fun x => x < ns)%N (t_sites t) && all (fun x => x < nf)%N (t_flavors t).

(* The text of a term and of a file. *)
Definition nums (l : seq nat) : seq (token C) := [seq TInt C n%:Z | n <- l].
Definition term_text (t : term) : seq (token C) :=
  nums [:: t_idx t; t_rank t; t_naf t] ++ TCplx (t_U t) ::
  nums (t_sites t) ++ nums (t_flavors t) ++ [seq TCplx c | c <- flatten (t_alpha t)].
Definition file_text (l : seq term) : seq (token C) := nums [:: size l] ++ flatten (map term_text l).

(* A definition in memory describes a term. *)
Definition describes (cast : C -> F) (c0 : C) (d : vdef F) (t : term) : Prop :=
  [/\ vd_rank d = t_rank t /\ vd_naf d = t_naf t,
      vd_flavors d = t_flavors t, vd_sites d = t_sites t, vd_U d = cast (t_U t) &
      forall a r, (a < t_naf t)%N -> (r < t_rank t)%N ->
        vd_alpha d a r = cast (nth c0 (nth [::] (t_alpha t) r) a)].

(* Every index of a definition can be used. *)
Definition indices_ok (ns nf : nat) (d : vdef F) : Prop :=
  [/\ size (vd_sites d) = (2 * vd_rank d)%N, size (vd_flavors d) = vd_rank d,
      all (fun x => x < ns)%N (vd_sites d) & all (fun x => x < nf)%N (vd_flavors d)].
End Spec.

(* The number of sequences of L random values (each below N) after which exactly the
   selection s has been produced from the first values. *)
Definition outcomes (N n L : nat) (s : seq nat) : nat :=
  #|[set x : L.-tuple 'I_N |
     if pickup_a_few_numbers N n [seq val i | i <- x] is Outcome.Ok (l, _) then l == s else false]|.
(* The same for the selection of vertices. *)
Definition outcomes_v (V : Type) (v0 : V) (vs : seq V) (p : pred V) (n L : nat) (s : seq nat) : nat :=
  #|[set x : L.-tuple 'I_(count p vs) |
     if pick_up_itime_vertices v0 vs p n [seq val i | i <- x] is Outcome.Ok (l, _) then l == s else false]|.
(* A selection of n different positions of vertices with property p. *)
Definition selection (V : Type) (v0 : V) (vs : seq V) (p : pred V) (n : nat) (s : seq nat) : bool :=
  [&& size s == n, uniq s & all (fun i => (i < size vs)%N && p (nth v0 vs i)) s].
(* Two vertices are the same apart from the internal number. *)
Definition same_vertex (Tm : eqType) (v w : vertex Tm) : bool :=
  [&& v_type v == v_type w, v_af v == v_af w, v_time v == v_time w & v_non v == v_non w].
