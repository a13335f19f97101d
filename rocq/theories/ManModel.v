(* Model of the Monte Carlo moves: /repo/src/update_manager.hpp ("update_manager.hpp"), the
   sampling loop of /repo/src/interaction_expansion.ipp ("interaction_expansion.ipp") and
   acc_rate_statistics of /repo/src/update_statistics.h ("update_statistics.h").
   Simplifications:
   - n_multi_vertex_update is 1 (update_manager.hpp:157): the branches for vertex pairs are
     left out, sv_update_vertices lists all vertex types (172-178), and Nv_m1_dist
     (284) always gives 0; the generator calls it makes are left out;
   - a random number is an element of a type R of which only its value, the test < 0.5, the
     integer static_cast<int>(r*N) and the times computed from it are used; a run consumes
     a list of them, and a run for which the list is too short is Diverge;
   - vdef.id() is the position of the vertex type (C37, C38);
   - debugging output, timings and histograms are left out. *)
From mathcomp Require Import all_ssreflect ssralg ssrnum ssrint matrix.
From Verif Require Import Outcome MatLib SubModel UMatModel.

Set Implicit Arguments.
Unset Strict Implicit.
Unset Printing Implicit Defensive.

Local Open Scope ring_scope.

Section Man.
Variables (F : numFieldType) (Tm : eqType) (ani : F).
Variable G0 : sop Tm -> sop Tm -> F.
Variable U : seq (vdef F).
Variables (x0 : sop Tm) (tm0 : Tm) (junk : fmat F).
(* update_manager.hpp:99-102 — beta, k_ins_max, max_order. *)
Variables (beta : F) (kmax max_order : nat).
(* random numbers *)
Variable R : Type.
Variable rval : R -> F.
Variable rhalf : R -> bool.             (* r < 0.5 *)
Variable ridx : nat -> R -> nat.        (* static_cast<int>(r*N) *)
Variable rtime : R -> Tm.               (* r*beta *)
Variable rshift : Tm -> R -> Tm.        (* mymod(t+(r-0.5)*shift_step_size, beta) *)

Notation vertex := (vertex Tm).
Notation sub := (sub F Tm).
Notation d0 := (vertex0 tm0).

(* random() (update_manager.hpp:358, 456, 491, 556-559) *)
Definition draw (rs : seq R) : outcome (R * seq R) := if rs is r :: rs' then Ok (r, rs') else Diverge.

(* update_statistics.h:94-118 — acc_rate_statistics: counter_. *)
Definition stats := (nat * nat)%type.
(* update_statistics.h:96-98, 113-115 — the constructor and reset. *)
Definition stats0 : stats := (0%N, 0%N).
(* update_statistics.h:100-102 — accepted. *)
Definition accepted (c : stats) : stats := (c.1.+1, c.2).
(* update_statistics.h:104-106 — rejected. *)
Definition rejected (c : stats) : stats := (c.1, c.2.+1).
(* update_statistics.h:108-111 — get_result; None for not-a-number (0/0). *)
Definition get_result (c : stats) : option (F * F) :=
  let sum := (c.1 + c.2)%N in
  if sum == 0%N then None else Some (c.1%:R / sum%:R, c.2%:R / sum%:R).

(* update_manager.hpp:172-178 — sv_update_vertices_flag. *)
Definition sv_flag : seq bool := nseq (size U) true.
(* update_manager.hpp:172-178 — sv_update_vertices.size(). *)
Definition sv_size : nat := size U.

(* update_manager.hpp:543-572 — gen_itime_vertices_insertion. *)
Definition gen_vertices (rs : seq R) : outcome (seq vertex * seq R) :=
  if sv_size == 0%N then Ok ([::], rs)
  else
  obind (draw rs) (fun x =>
  obind (draw x.2) (fun y =>
  let iv := ridx sv_size y.1 in
  if (sv_size <= iv)%N then UB
  else
  obind (draw y.2) (fun z =>
  Ok ([:: (iv, ridx (vd_naf (get_vertex U iv)) z.1, rtime x.1, false, 0%N)], z.2)))).

(* update_manager.hpp:355-361 — the kinds of the 2*k_ins_max steps, true for insertion. *)
Fixpoint draw_kinds (n : nat) (rs : seq R) : outcome (seq bool * seq R) :=
  if n is n'.+1 then
    obind (draw rs) (fun x => obind (draw_kinds n' x.2) (fun y => Ok (rhalf x.1 :: y.1, y.2)))
  else Ok ([::], rs).

(* update_manager.hpp:369-383 — the vertices of all insertions, and for each insertion the
   position of its first vertex and their number. *)
Fixpoint gen_all (n : nat) (begin_ : nat) (rs : seq R) : outcome (seq vertex * seq (nat * nat) * seq R) :=
  if n is n'.+1 then
    obind (gen_vertices rs) (fun x =>
    let new := [seq set_state v None | v <- x.1] in
    obind (gen_all n' (begin_ + size x.1) x.2) (fun y =>
    Ok (new ++ y.1.1, (begin_, size x.1) :: y.1.2, y.2)))
  else Ok ([::], [::], rs).

(* update_manager.hpp:574-585 — acc_rate_corr_insertion for one vertex. *)
Definition candidate (v : vertex) : bool := ~~ v_non v && nth false sv_flag (v_type v).
(* update_manager.hpp:574-585 — acc_rate_corr_insertion. *)
Definition corr_insertion (vs : seq vertex) : F :=
  let num_cand := foldl (fun n v => if candidate v then n.+1 else n) 0%N vs in
  (beta * sv_size%:R) / (num_cand%:R + 1).

(* update_manager.hpp:431-463 — insertion_step: returned ratio, object, random numbers. *)
Definition insertion_step (s : sub) (begin_ n : nat) (us : F) (rs : seq R) : outcome (F * sub * seq R) :=
  if n == 0%N then Ok (1, s, rs)
  else if (1 < n)%N then Throw
  else
    let req := [seq (begin_ + iv, Some (v_af (nth d0 (su_v s) (begin_ + iv))))%N | iv <- iota 0 n] in
    obind (try_spin_flip ani U s tm0 req) (fun t =>
    let: (s1, (d, f, u)) := t in
    let prob := d * f * u * corr_insertion (su_v s1) * us ^+ n in
    obind (draw rs) (fun x =>
    if rval x.1 < `|prob| then
      obind (perform_spin_flip junk tm0 s1 req) (fun s2 => Ok (d * f * u, s2, x.2))
    else
      obind (reject_spin_flip s1) (fun s2 => Ok (1, s2, x.2)))).

(* update_manager.hpp:613-637 — pick_up_vertices_to_be_removed for one vertex: the factor, the
   positions and the random numbers. *)
Definition swap0 (l : seq nat) (k : nat) : seq nat :=
  set_nth 0%N (set_nth 0%N l 0 (nth 0%N l k)) k (nth 0%N l 0).
(* update_manager.hpp:613-637 — pick_up_vertices_to_be_removed. *)
Definition pick_removed (vs : seq vertex) (rs : seq R) : outcome (F * seq nat * seq R) :=
  let pos := foldl (fun l iv => if candidate (nth d0 vs iv) then rcons l iv else l) [::] (iota 0 (size vs)) in
  if (0 < size pos)%N then
    obind (draw rs) (fun x =>
    let k := ridx (size pos) x.1 in
    if (size pos <= k)%N then UB
    else Ok ((size pos)%:R / (beta * sv_size%:R), take 1 (swap0 pos k), x.2))
  else Ok (0, pos, rs).

(* update_manager.hpp:465-498 — removal_step. *)
Definition removal_step (s : sub) (us : F) (rs : seq R) : outcome (F * sub * seq R) :=
  obind (pick_removed (su_v s) rs) (fun p =>
  let: (corr, pos, rs1) := p in
  if size pos == 0%N then Ok (1, s, rs1)
  else
    let req := [seq (iv, None) | iv <- pos] in
    obind (try_spin_flip ani U s tm0 req) (fun t =>
    let: (s1, (d, f, u)) := t in
    let prob := d * f * u * corr * (us^-1) ^+ size pos in
    obind (draw rs1) (fun x =>
    if rval x.1 < `|prob| then
      obind (perform_spin_flip junk tm0 s1 req) (fun s2 => Ok (d * f * u, s2, x.2))
    else
      obind (reject_spin_flip s1) (fun s2 => Ok (1, s2, x.2))))).

(* update_manager.hpp:391-421 — the loop over the steps; [ins] are the insertions not yet
   tried, w is weight_rat, c is acc_rate_ins_rem. *)
Fixpoint ins_rem_loop (kinds : seq bool) (ins : seq (nat * nat)) (us : F) (s : sub) (w : F) (c : stats) (rs : seq R)
  : outcome (F * sub * stats * seq R) :=
  if kinds is k :: kinds' then
    let next := fun (x : F * sub * seq R) ins' =>
      ins_rem_loop kinds' ins' us x.1.2 (w * x.1.1) (if x.1.1 != 1 then accepted c else rejected c) x.2 in
    if k then
      if ins is (b, n) :: ins' then
        if (max_order < num_interacting (su_v s) + n)%N then next (1, s, rs) ins'
        else obind (insertion_step s b n us rs) (fun x => next x ins')
      else UB
    else obind (removal_step s us rs) (fun x => next x ins)
  else Ok (w, s, c, rs).

(* update_manager.hpp:351-427 — do_ins_rem_update. *)
Definition do_ins_rem (s : sub) (us : F) (c : stats) (rs : seq R) : outcome (F * sub * stats * seq R) :=
  obind (draw_kinds (2 * kmax) rs) (fun k =>
  obind (gen_all (count id k.1) (size (su_v s)) k.2) (fun g =>
  obind (init_update ani G0 U x0 s g.1.1) (fun s1 =>
  obind (ins_rem_loop k.1 g.1.2 us s1 1 c g.2) (fun l =>
  let: (w, s2, c2, rs2) := l in
  obind (finalize_update ani x0 s2) (fun s3 => Ok (w, s3, c2, rs2)))))).

(* pickup_a_few_numbers(N, n, random), util.h:60-79, on random numbers. *)
Definition pickup (N n : nat) (rs : seq R) : outcome (seq nat * seq R) :=
  obind (pickup_a_few_numbers N n [seq ridx N r | r <- rs]) (fun x =>
  Ok (x.1, drop (size rs - size x.2) rs)).

(* update_manager.hpp:711-714 — a new state different from the old one. *)
Fixpoint draw_spin (naf old : nat) (rs : seq R) : outcome (nat * seq R) :=
  if rs is r :: rs' then
    if ridx naf r == old then draw_spin naf old rs' else Ok (ridx naf r, rs')
  else Diverge.

(* update_manager.hpp:698-728 — spin_flip_step. *)
Definition spin_flip_step (s : sub) (pos : nat) (rs : seq R) : outcome (F * sub * seq R) :=
  if (size (su_v s) <= pos)%N then UB
  else
  let v := nth d0 (su_v s) pos in
  if (size U <= v_type v)%N then UB
  else
  let naf := vd_naf (get_vertex U (v_type v)) in
  if (naf <= 1)%N then Ok (1, s, rs)
  else
  obind (draw_spin naf (v_af v) rs) (fun y =>
  let req := [:: (pos, Some y.1)] in
  obind (try_spin_flip ani U s tm0 req) (fun t =>
  let: (s1, (d, f, u)) := t in
  obind (draw y.2) (fun x =>
  if rval x.1 < `|d * f * u| then
    obind (perform_spin_flip junk tm0 s1 req) (fun s2 => Ok (d * f * u, s2, x.2))
  else
    obind (reject_spin_flip s1) (fun s2 => Ok (1, s2, x.2))))).

(* update_manager.hpp:687-690 *)
Fixpoint spin_flip_loop (ps : seq nat) (s : sub) (w : F) (rs : seq R) : outcome (F * sub * seq R) :=
  if ps is p :: ps' then
    obind (spin_flip_step s p rs) (fun x => spin_flip_loop ps' x.1.2 (w * x.1.1) x.2)
  else Ok (w, s, rs).

(* update_manager.hpp:672-696 — do_spin_flip_update. *)
Definition do_spin_flip (s : sub) (rs : seq R) : outcome (F * sub * seq R) :=
  let Nv0 := size (su_v s) in
  obind (pickup Nv0 (minn (2 * kmax) Nv0) rs) (fun ps =>
  obind (init_update ani G0 U x0 s [::]) (fun s1 =>
  obind (spin_flip_loop ps.1 s1 1 ps.2) (fun l =>
  obind (finalize_update ani x0 l.1.2) (fun s3 => Ok (l.1.1, s3, l.2))))).

(* update_manager.hpp:741-748 — the shifted copies. *)
Fixpoint shift_copies (vs : seq vertex) (ps : seq nat) (rs : seq R) : outcome (seq vertex * seq R) :=
  if ps is p :: ps' then
    let v := nth d0 vs p in
    obind (draw rs) (fun x =>
    obind (shift_copies vs ps' x.2) (fun y =>
    Ok ((v_type v, v_af v, rshift (v_time v) x.1, true, v_uid v) :: y.1, y.2)))
  else Ok ([::], rs).

(* update_manager.hpp:758-788 — the loop over the shifts; q is i_update+Nv0.  The step size is
   not tuned in the calls of interaction_expansion.ipp:112. *)
Fixpoint shift_loop (ps : seq nat) (q : nat) (s : sub) (w : F) (rs : seq R) : outcome (F * sub * seq R) :=
  if ps is p :: ps' then
    let req := [:: (p, None); (q, Some (v_af (nth d0 (su_v s) p)))] in
    obind (try_spin_flip ani U s tm0 req) (fun t =>
    let: (s1, (d, f, u)) := t in
    obind (draw rs) (fun x =>
    if rval x.1 < `|d * f * u| then
      obind (perform_spin_flip junk tm0 s1 req) (fun s2 => shift_loop ps' q.+1 s2 (w * (d * f * u)) x.2)
    else
      obind (reject_spin_flip s1) (fun s2 => shift_loop ps' q.+1 s2 w x.2)))
  else Ok (w, s, rs).

(* update_manager.hpp:730-795 — do_shift_update. *)
Definition do_shift (s : sub) (rs : seq R) : outcome (F * sub * seq R) :=
  let Nv0 := size (su_v s) in
  obind (pickup Nv0 (minn Nv0 kmax) rs) (fun ps =>
  obind (shift_copies (su_v s) ps.1 ps.2) (fun cp =>
  obind (init_update ani G0 U x0 s cp.1) (fun s1 =>
  obind (shift_loop ps.1 Nv0 s1 1 cp.2) (fun l =>
  obind (finalize_update ani x0 l.1.2) (fun s3 => Ok (l.1.1, s3, l.2)))))).

(* ---- global updates ---- *)

(* interaction_expansion.ipp:288-330 — compute_weight; [ranks] are the ranks stored in the
   vertices, which set_vertex_type does not change (U_matrix.h:394).  A vertex flagged as
   non-interacting is treated like any other. *)
Definition cw_ok (nf : nat) (v : vertex) (rank : nat) : bool :=
  let d := get_vertex U (v_type v) in
  [&& (v_type v < size U)%N, (rank <= size (vd_flavors d))%N, (2 * rank <= size (vd_sites d))%N,
      all (fun r => nth 0%N (vd_flavors d) r < nf)%N (iota 0 rank), (rank <= vd_rank d)%N &
      (v_af v < vd_naf d)%N].
(* interaction_expansion.ipp:302-312 — the operators and the alpha of one rank of a vertex. *)
Definition cw_term (v : vertex) (r : nat) : nat * (sop Tm * sop Tm * F) :=
  let d := get_vertex U (v_type v) in
  let fl := nth 0%N (vd_flavors d) r in
  (fl, ((fl, nth 0%N (vd_sites d) (2 * r), v_time v, - r%:Z),
        (fl, nth 0%N (vd_sites d) (2 * r + 1), v_time v, - r%:Z),
        vd_alpha d (v_af v) r)).
(* interaction_expansion.ipp:288-330 — compute_weight. *)
Definition compute_weight (nf : nat) (vs : seq vertex) (ranks : seq nat) : outcome F :=
  if ~~ all (fun x => cw_ok nf x.1 x.2) (zip vs ranks) then UB
  else
    let l := flatten [seq [seq cw_term x.1 r | r <- iota 0 x.2] | x <- zip vs ranks] in
    let ops fl := [seq x.2 | x <- l & x.1 == fl] in
    let wU := foldl (fun w v => w * - vd_U (get_vertex U (v_type v))) 1 vs in
    let t fl k := nth (x0, x0, 0) (ops fl) k in
    let M fl : fmat F := fun i j => G0 (t fl i).1.2 (t fl j).1.1 - (if i == j then (t fl j).2 else 0) in
    let wdet := foldl (fun w fl => w * fdet (size (ops fl)) (M fl)) 1 (iota 0 nf) in
    Ok (wU * wdet).

(* update_manager.hpp:818-830 — DoTransform. *)
Definition transform (map_ : seq nat) (v : vertex) : vertex :=
  (nth 0%N map_ (v_type v), v_af v, v_time v, v_non v, v_uid v).

(* update_manager.hpp:797-816 — global_update_impl: the vertices afterwards and the returned
   weight (ItimeVertexContainer::push_back never throws, C39). *)
Definition global_update_impl (nf : nat) (vs : seq vertex) (ranks : seq nat) (map_ : seq nat) (w : F) (rs : seq R)
  : outcome (seq vertex * F * seq R) :=
  if ~~ all (fun v => v_type v < size map_)%N vs then UB
  else
  let new := map (transform map_) vs in
  obind (compute_weight nf new ranks) (fun wn =>
  obind (draw rs) (fun x =>
  if rval x.1 < `|wn / w| then Ok (new, wn, x.2) else Ok (vs, w, x.2))).

(* update_manager.hpp:844-847 — the loop over the maps. *)
Fixpoint global_loop (nf : nat) (maps : seq (seq nat)) (vs : seq vertex) (ranks : seq nat) (w : F) (rs : seq R)
  : outcome (seq vertex * F * seq R) :=
  if maps is m :: maps' then
    obind (global_update_impl nf vs ranks m w rs) (fun x => global_loop nf maps' x.1.1 ranks x.1.2 x.2)
  else Ok (vs, w, rs).

(* update_manager.hpp:832-856 — global_updates.  The objects are in a store, a shared_ptr is
   a position of the store; the function gets a copy of the caller's pointer.  Result: the
   store and the callee's own copy of the pointer at its end. *)
Definition store := seq sub.
(* update_manager.hpp:832-856 — global_updates. *)
Definition global_updates (nf : nat) (maps : seq (seq nat)) (h : store) (submatrix : nat) (jk : F) (rs : seq R)
  : outcome (store * nat * seq R) :=
  if size maps == 0%N then Ok (h, submatrix, rs)
  else
  let vs := su_v (nth (sub_new Tm nf jk) h submatrix) in
  let ranks := [seq vd_rank (get_vertex U (v_type v)) | v <- vs] in
  obind (compute_weight nf vs ranks) (fun w =>
  obind (global_loop nf maps vs ranks w rs) (fun x =>
  obind (sub_from ani G0 U x0 nf jk x.1.1) (fun walker =>
  let walker_new := size h in
  let h' := rcons h walker in
  (* submatrix.swap(walker_new) *)
  let submatrix' := walker_new in
  Ok (h', submatrix', x.2)))).

(* ---- the sampling loop ---- *)

(* interaction_expansion.ipp:96-123 — a loop any turn of which may fail. *)
Fixpoint iter_out (A : Type) (f : A -> outcome A) (n : nat) (a : A) : outcome A :=
  if n is n'.+1 then obind (f a) (iter_out f n') else Ok a.

(* interaction_expansion.hpp:306, 345, update_manager.hpp:144 — the object (in the store),
   acc_rate_ins_rem, acc_rate_shift, step and the random numbers. *)
Record sampler := Sampler {
  sm_h : store; sm_p : nat; sm_c : stats; sm_cs : stats; sm_step : nat; sm_rs : seq R }.
Variables (n_ins_rem n_shift n_spin_flip mperiod : nat) (maps : seq (seq nat)) (nf : nat) (jk : F).
(* interaction_expansion.hpp:306 — *submatrix_update. *)
Definition sm_sub (x : sampler) : sub := nth (sub_new Tm nf jk) (sm_h x) (sm_p x).
(* interaction_expansion.hpp:306 — the store after a change of *submatrix_update. *)
Definition sm_put (x : sampler) (s : sub) : store := set_nth (sub_new Tm nf jk) (sm_h x) (sm_p x) s.

(* interaction_expansion.ipp:96-123 — one pass of the loop over the measurement period. *)
Definition mc_step (x : sampler) : outcome sampler :=
  obind (iter_out (fun y : sub * stats * seq R =>
           obind (do_ins_rem y.1.1 1 y.1.2 y.2) (fun r => Ok (r.1.1.2, r.1.2, r.2))) n_ins_rem
         (sm_sub x, sm_c x, sm_rs x)) (fun a =>
  obind (iter_out (fun y : sub * seq R => obind (do_shift y.1 y.2) (fun r => Ok (r.1.2, r.2))) n_shift
         (a.1.1, a.2)) (fun b =>
  obind (iter_out (fun y : sub * seq R => obind (do_spin_flip y.1 y.2) (fun r => Ok (r.1.2, r.2))) n_spin_flip
         b) (fun d =>
  Ok (Sampler (sm_put x d.1) (sm_p x) a.1.2 (sm_cs x) (sm_step x).+1 d.2)))).

(* interaction_expansion.ipp:87-154 — update. *)
Definition update (x : sampler) : outcome sampler :=
  obind (iter_out mc_step mperiod x) (fun y =>
  obind (if (sm_step y %% (20 * mperiod) == 0)%N then recompute_matrix ani G0 U x0 (sm_sub y) else Ok (sm_sub y)) (fun s =>
  let h := sm_put y s in
  obind (global_updates nf maps h (sm_p y) jk (sm_rs y)) (fun g =>
  Ok (Sampler g.1.1 (sm_p y) (sm_c y) (sm_cs y) (sm_step y) g.2)))).

End Man.

(* ---- the file of global updates ---- *)

(* ss >> x: at the end of the input x keeps its value (None: never assigned) (update_manager.hpp:239, 249). *)
Definition read_int (x : option int) (ts : seq int) : option int * seq int :=
  if ts is t :: ts' then (Some t, ts') else (x, ts).

(* update_manager.hpp:247-264 — the lines of one update. *)
Fixpoint read_map (n iv k : nat) (src dst : option int) (ts : seq int)
  : outcome (seq nat * option int * option int * seq int) :=
  if k is k'.+1 then
    let: (src', ts1) := read_int src ts in
    let: (dst', ts2) := read_int dst ts1 in
    match src', dst' with
    | Some a, Some (Posz d) =>
        if (a != Posz iv) || (n <= d)%N then Throw
        else obind (read_map n iv.+1 k' src' dst' ts2) (fun r =>
             let: (l, sa, sb, t) := r in Ok (d :: l, sa, sb, t))
    | Some _, Some (Negz _) => Throw
    | _, _ => UB
    end
  else Ok ([::], src, dst, ts).

(* update_manager.hpp:268-271 — the reverse map. *)
Definition reverse_map (n : nat) (m : seq nat) : seq nat :=
  foldl (fun rev iv => set_nth 0%N rev (nth 0%N m iv) iv) (nseq n 0%N) (iota 0 n).

(* update_manager.hpp:242-273 *)
Fixpoint read_maps (n k : nat) (src dst : option int) (ts : seq int) : outcome (seq (seq nat)) :=
  if k is k'.+1 then
    obind (read_map n 0 n src dst ts) (fun r =>
    let: (m, sa, sb, t) := r in
    obind (read_maps n k' sa sb t) (fun l => Ok (m :: reverse_map n m :: l)))
  else Ok [::].

(* operator< of std::vector<int> (update_manager.hpp:245) *)
Fixpoint lexle (a b : seq nat) : bool :=
  match a, b with
  | [::], _ => true
  | _ :: _, [::] => false
  | x :: a', y :: b' => (x < y)%N || ((x == y) && lexle a' b')
  end.

(* update_manager.hpp:235-274 — global_update_list; the tokens of the file are integers. *)
Definition read_global_updates (n : nat) (ts : seq int) : outcome (seq (seq nat)) :=
  match ts with
  | [::] => UB
  | Posz k :: ts' => obind (read_maps n k None None ts') (fun l => Ok (sort lexle (undup l)))
  | Negz _ :: _ => Ok [::]
  end.
