(* Model of the updates that insert or remove two vertices at once: SymmExpDist and the
   branches for two vertices of /repo/src/update_manager.hpp ("update_manager.hpp"), the
   pair functions of /repo/src/U_matrix.h ("U_matrix.h") and gen_rand_rejection_method of
   /repo/src/util.h ("util.h").  At the pinned commit n_multi_vertex_update is 1
   (update_manager.hpp:157), so the program does not reach them.
   Simplifications:
   - random numbers are consumed from a list as in ManModel.v; std::exp, mymod(x, beta) and
     the index drawn by boost::random::discrete_distribution are parameters;
   - vdef.id() is the position of the vertex type. *)
From mathcomp Require Import all_ssreflect ssralg ssrnum ssrint matrix.
From Verif Require Import Outcome MatLib SubModel UMatModel ManModel.

Set Implicit Arguments.
Unset Strict Implicit.
Unset Printing Implicit Defensive.

Local Open Scope ring_scope.

Section Dist.
Variables (F : fieldType) (exp : F -> F) (a b beta : F).
(* update_manager.hpp:33 — coeff_. *)
Definition sd_coeff : F := 1 / ((2%:R / a) * (1 - exp (- a * beta)) + b * beta).
(* update_manager.hpp:34 — coeffX_. *)
Definition sd_coeffX : F := 2%:R * (1 - exp (- a * beta)) / (a * beta) + b.
(* update_manager.hpp:37 — bare_value. *)
Definition sd_bare (dtau : F) : F := exp (- a * dtau) + exp (- a * (beta - dtau)) + b.
(* update_manager.hpp:36 — operator(). *)
Definition sd_norm (dtau : F) : F := sd_coeff * sd_bare dtau.
(* update_manager.hpp:38 — coeff_X. *)
Definition sd_coeff_X (dtau : F) : F := sd_coeffX.
End Dist.

Section Rejection.
Variables (F : numFieldType) (R : Type) (rval : R -> F).
(* util.h:227-241 — gen_rand_rejection_method: the value and the remaining random numbers. *)
Fixpoint gen_rejection (dist : F -> F) (max_dist beta : F) (rs : seq R) : outcome (F * seq R) :=
  match rs with
  | r1 :: r2 :: rs' =>
      let x := beta * rval r1 in
      if rval r2 < 1 / max_dist * dist x then Ok (x, rs') else gen_rejection dist max_dist beta rs'
  | _ => Diverge
  end.
End Rejection.

Section Pair.
Variables (F : numFieldType) (Tm : eqType) (ani : F).
Variable U : seq (vdef F).
Variable density : nat -> bool.          (* is_density_type() of a vertex type *)
Variables (tm0 : Tm) (junk : fmat F).
Variable beta : F.
Variables (exp : F -> F) (a b : F).      (* symm_exp_dist, update_manager.hpp:221 *)
Variable R : Type.
Variable rval : R -> F.
Variable ridx : nat -> R -> nat.         (* static_cast<int>(r*N) *)
Variable rtime : R -> Tm.                (* mymod(beta*r, beta) *)
Variable tadd : Tm -> F -> Tm.           (* mymod(t+d, beta) *)
Variable tdiff : Tm -> Tm -> F.          (* mymod(t-s, beta) *)
Variable rdisc : seq F -> R -> nat.      (* discrete_distribution<>(prob)(engine) *)
Variable pairs : seq (nat * nat).        (* mv_update_valid_pair *)

Notation vertex := (vertex Tm).
Notation sub := (sub F Tm).
Notation d0 := (vertex0 tm0).
Notation bare := (sd_bare exp a b beta).

(* U_matrix.h:606-631 — generate_valid_vertex_pair2. *)
Definition gen_pair (vp : nat * nat) (rs : seq R) : outcome (seq vertex * seq R) :=
  obind (draw rs) (fun x =>
  let t0 := rtime x.1 in
  obind (gen_rejection rval (sd_norm exp a b beta) (sd_norm exp a b beta 0) beta x.2) (fun y =>
  let t1 := tadd t0 y.1 in
  if (size U <= vp.1)%N then UB else
  obind (draw y.2) (fun z =>
  let v0 := (vp.1, ridx (vd_naf (get_vertex U vp.1)) z.1, t0, false, 0%N) in
  if density vp.1 then Throw else
  if (size U <= vp.2)%N then UB else
  obind (draw z.2) (fun w =>
  let v1 := (vp.2, ridx (vd_naf (get_vertex U vp.2)) w.1, t1, false, 0%N) in
  if density vp.2 then Throw else Ok ([:: v0; v1], w.2))))).

(* update_manager.hpp:561-567 — gen_itime_vertices_insertion for two vertices. *)
Definition gen_vertices2 (rs : seq R) : outcome (seq vertex * seq R) :=
  if size pairs == 0%N then Ok ([::], rs)
  else obind (draw rs) (fun x =>
       if (size pairs <= ridx (size pairs) x.1)%N then UB
       else gen_pair (nth (0, 0)%N pairs (ridx (size pairs) x.1)) x.2).

(* U_matrix.h:735-752 — pos_v1 and pos_v2. *)
Definition pair_positions (vs : seq vertex) (vp : nat * nat) : seq nat * seq nat :=
  foldl (fun p iv =>
      let v := nth d0 vs iv in
      if v_non v then p
      else if v_type v == vp.1 then (rcons p.1 iv, p.2)
      else if v_type v == vp.2 then (p.1, rcons p.2 iv) else p)
    ([::], [::]) (iota 0 (size vs)).

(* U_matrix.h:732-776 — pick_up_valid_vertex_pair2: None if there is no pair, otherwise the
   chosen positions and F. *)
Definition pick_pair (vs : seq vertex) (vp : nat * nat) (rs : seq R)
  : outcome (option (nat * nat * F) * seq R) :=
  let: (p1, p2) := pair_positions vs vp in
  if (size p1 * size p2 == 0)%N then Ok (None, rs)
  else
    let prob := [seq bare (tdiff (v_time (nth d0 vs i2)) (v_time (nth d0 vs i1))) | i1 <- p1, i2 <- p2] in
    let sum := foldl +%R 0 prob in
    obind (draw rs) (fun x =>
    let idx := rdisc prob x.1 in
    if (size p1 <= idx %/ size p2)%N then UB
    else Ok (Some (nth 0%N p1 (idx %/ size p2), nth 0%N p2 (idx %% size p2), sum), x.2)).

(* update_manager.hpp:586-607 — acc_rate_corr_insertion for two vertices; set_interacting,
   U_matrix.h:392, clears the flag only. *)
Definition set_interacting (v : vertex) : vertex := (v_type v, v_af v, v_time v, false, v_uid v).
(* update_manager.hpp:586-607 — acc_rate_corr_insertion for two vertices. *)
Definition corr_insertion2 (vs : seq vertex) (p0 p1 : nat) (rs : seq R) : outcome (F * seq R) :=
  let new := set_nth d0 vs p0 (set_interacting (nth d0 vs p0)) in
  let new2 := set_nth d0 new p1 (set_interacting (nth d0 new p1)) in
  let v0 := nth d0 vs p0 in
  let v1 := nth d0 vs p1 in
  let dtau := tdiff (v_time v0) (v_time v1) in
  obind (pick_pair new2 (v_type v0, v_type v1) rs) (fun x =>
  if x.1 is Some (_, _, sum)
  then Ok (beta * beta * sd_coeff_X exp a b beta dtau / sum, x.2)
  else Throw).

(* update_manager.hpp:640-664 — pick_up_vertices_to_be_removed for two vertices. *)
Definition pick_removed2 (vs : seq vertex) (rs : seq R) : outcome (F * seq nat * seq R) :=
  if size pairs == 0%N then Ok (0, [::], rs)
  else
    obind (draw rs) (fun x =>
    if (size pairs <= ridx (size pairs) x.1)%N then UB else
    obind (pick_pair vs (nth (0, 0)%N pairs (ridx (size pairs) x.1)) x.2) (fun y =>
    if y.1 is Some (i0, i1, sum) then
      let t0 := v_time (nth d0 vs i0) in
      let t1 := v_time (nth d0 vs i1) in
      Ok (sum / (beta * beta * sd_coeff_X exp a b beta (tdiff t1 t0)), [:: i0; i1], y.2)
    else Ok (0, [::], y.2))).

(* update_manager.hpp:431-463 — insertion_step for two vertices. *)
Definition insertion_step2 (s : sub) (begin_ : nat) (us : F) (rs : seq R) : outcome (F * sub * seq R) :=
  let req := [seq (begin_ + iv, Some (v_af (nth d0 (su_v s) (begin_ + iv))))%N | iv <- iota 0 2] in
  obind (try_spin_flip ani U s tm0 req) (fun t =>
  let: (s1, (d, f, u)) := t in
  obind (corr_insertion2 (su_v s1) begin_ begin_.+1 rs) (fun c =>
  let prob := d * f * u * c.1 * us ^+ 2 in
  obind (draw c.2) (fun x =>
  if rval x.1 < `|prob| then
    obind (perform_spin_flip junk tm0 s1 req) (fun s2 => Ok (d * f * u, s2, x.2))
  else
    obind (reject_spin_flip s1) (fun s2 => Ok (1, s2, x.2))))).

(* update_manager.hpp:465-498 — removal_step for two vertices. *)
Definition removal_step2 (s : sub) (us : F) (rs : seq R) : outcome (F * sub * seq R) :=
  obind (pick_removed2 (su_v s) rs) (fun p =>
  let: (corr, pos, rs1) := p in
  if size pos == 0%N then Ok (1, s, rs1)
  else
    let req := [seq (iv, None) | iv <- pos] in
    obind (try_spin_flip ani U s tm0 req) (fun t =>
    let: (s1, (d, f, u)) := t in
    let prob := d * f * u * corr * (us^-1) ^+ size pos in
    obind (draw rs1) (fun x =>
    if rval x.1 < `|prob| then
      obind (perform_spin_flip junk tm0 s1 req) (fun s2 => Ok (d * f * u, s2, x.2))
    else
      obind (reject_spin_flip s1) (fun s2 => Ok (1, s2, x.2))))).

End Pair.

(* ---- valid pairs ---- *)

(* util.h:214-224 — is_all_zero. *)
Definition is_all_zero (q : seq int) : bool := all (fun x => x == 0) q.

(* U_matrix.h:818-840 — find_valid_pair_multi_vertex_update: the pairs and the flags.
   quantum_numbers[v][0] is UB for a missing entry; valarrays of different lengths are UB.
   Entries of v_pair_flag not assigned keep the value given by resize, false. *)
Definition qn_of (qns : seq (seq (seq int))) (v : nat) : option (seq int) := ohead (nth [::] qns v).
(* U_matrix.h:832 — the sum of two quantum numbers. *)
Definition add_qn (x y : seq int) : seq int := [seq p.1 + p.2 | p <- zip x y].
(* U_matrix.h:821-822 — v_pair and v_pair_flag. *)
Definition pair_state : Type := (seq (nat * nat) * (nat -> nat -> bool))%type.
(* U_matrix.h:829-838 — the body of the inner loop. *)
Definition find_inner (qns : seq (seq (seq int))) (v1 : nat) (q1 : seq int) (o : outcome pair_state) (v2 : nat)
  : outcome pair_state :=
  obind o (fun st =>
    if qn_of qns v2 is Some q2 then
      if is_all_zero q2 then Ok st
      else if size q1 != size q2 then UB
      else
        let flag := is_all_zero (add_qn q1 q2) in
        Ok (if (v1 < v2)%N && flag then rcons st.1 (v1, v2) else st.1,
            fun i j : nat => if (i == v1) && (j == v2) then flag else st.2 i j)
    else UB).
(* U_matrix.h:826-839 — the body of the outer loop. *)
Definition find_outer (qns : seq (seq (seq int))) (o : outcome pair_state) (v1 : nat) : outcome pair_state :=
  obind o (fun st =>
    if qn_of qns v1 is Some q1 then
      if is_all_zero q1 then Ok st else foldl (find_inner qns v1 q1) (Ok st) (iota 0 (size qns))
    else UB).
(* U_matrix.h:818-840 — find_valid_pair_multi_vertex_update. *)
Definition find_valid_pairs (qns : seq (seq (seq int))) : outcome pair_state :=
  if qn_of qns 0 is Some _ then
    foldl (find_outer qns) (Ok ([::], fun _ _ : nat => false)) (iota 0 (size qns))
  else UB.

(* update_manager.hpp:206-219 — the pairs given in update.double_vertex_update_pairs, an
   integer list; an odd number of integers (v2 keeps its value, none the first time) is UB. *)
Fixpoint add_pairs (n : nat) (ts : seq int) (st : pair_state) : outcome pair_state :=
  match ts with
  | [::] => Ok st
  | [:: _] => UB
  | x :: y :: ts' =>
      match x, y with
      | Posz v1, Posz v2 =>
          if (n <= v1)%N || (n <= v2)%N then Throw
          else if ~~ st.2 v1 v2 then
            add_pairs n ts' (rcons st.1 (v1, v2),
              fun i j : nat => if ((i == v1) && (j == v2)) || ((i == v2) && (j == v1)) then true else st.2 i j)
          else add_pairs n ts' st
      | _, _ => Throw
      end
  end.
