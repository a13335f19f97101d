(* Model of the functions of /repo/src/U_matrix.h ("U_matrix.h") for pairs of vertices in a
   window of imaginary time.  The program at the pinned commit does not call them.
   Simplifications:
   - times are elements of an ordered field; random numbers are consumed from a list as in
     ManModel.v;
   - is_density_type() of a vertex is that of its type, a parameter. *)
From mathcomp Require Import all_ssreflect ssralg ssrnum ssrint.
From Verif Require Import Outcome SubModel UMatModel ManModel.

Set Implicit Arguments.
Unset Strict Implicit.
Unset Printing Implicit Defensive.

Local Open Scope ring_scope.

Section Win.
Variable F : realFieldType.
Notation Tm := (Num.RealField.eqType F).
Notation vertex := (vertex Tm).
Variable density : nat -> bool.          (* is_density_type() of a vertex type *)

(* U_matrix.h:563-565 — the members of non_density_type_in_window. *)
Record win := Win { w_ts : F; w_w : F; w_beta : F; w_s1 : F; w_l1 : F; w_s2 : F; w_l2 : F }.

(* U_matrix.h:528-541 — the constructor with three arguments. *)
Definition win_new (ts w beta : F) : win :=
  if ts + w <= beta then Win ts w beta ts (ts + w) ts (ts + w)
  else Win ts w beta ts beta 0 (w + ts - beta).

(* U_matrix.h:543-546 — operator(). *)
Definition win_test (x : win) (v : vertex) : bool :=
  let t := v_time v in
  ~~ density (v_type v) &&
  (((w_s1 x <= t) && (t <= w_l1 x)) || ((w_s2 x <= t) && (t <= w_l2 x))).

(* U_matrix.h:548-555 — random_time. *)
Definition win_time (x : win) (r : F) : F :=
  let t := r * w_w x + w_ts x in if w_beta x < t then t - w_beta x else t.

(* ---- pairs in the vertex list ---- *)

Variables (ntype : nat) (flag : nat -> nat -> bool).   (* valid_pair_flag *)
Variable window : vertex -> bool.
(* valid_pair_flag[a][b] (U_matrix.h:676, 707) *)
Definition flag_at (a b : nat) : outcome bool := if (a < ntype)%N && (b < ntype)%N then Ok (flag a b) else UB.

(* a[i] = x of a std::vector: outside its size it is UB, whatever its capacity
   (U_matrix.h:664) *)
Definition vec_write (a : seq nat) (i x : nat) : outcome (seq nat) :=
  if (i < size a)%N then Ok (set_nth 0%N a i x) else UB.

(* U_matrix.h:661-667 — the loop of count_valid_vertex_pair: (vs_win, pos, idx). *)
Definition count_step (o : outcome (seq nat * seq nat * nat)) (v : vertex) : outcome (seq nat * seq nat * nat) :=
  obind o (fun st =>
    let: (vs_win, pos, idx) := st in
    if window v && ~~ density (v_type v) then
      let vs_win' := rcons vs_win (v_type v) in
      obind (vec_write pos (size vs_win' - 1) idx) (fun pos' => Ok (vs_win', pos', idx.+1))
    else Ok (vs_win, pos, idx.+1)).
(* U_matrix.h:672-678 — the inner loop. *)
Definition count_inner (vs_win : seq nat) (iv : nat) (o : outcome nat) (iv2 : nat) : outcome nat :=
  obind o (fun n =>
    if (iv <= iv2)%N then Ok n
    else obind (flag_at (nth 0%N vs_win iv) (nth 0%N vs_win iv2)) (fun b => Ok (if b then n.+1 else n))).
(* U_matrix.h:655-682 — count_valid_vertex_pair. *)
Definition count_valid_pair (vs : seq vertex) : outcome nat :=
  obind (foldl count_step (Ok ([::], [::], 0%N)) vs) (fun st =>
    let N := size st.1.1 in
    foldl (fun o iv => foldl (count_inner st.1.1 iv) o (iota 0 N)) (Ok 0%N) (iota 0 N)).

(* U_matrix.h:690-697 — the loop of pick_up_valid_vertex_pair: (vs_win, pos, idx). *)
Definition pick_step (st : seq nat * seq nat * nat) (v : vertex) : seq nat * seq nat * nat :=
  let: (vs_win, pos, idx) := st in
  if window v && ~~ density (v_type v) then (rcons vs_win (v_type v), rcons pos idx, idx.+1)
  else (vs_win, pos, idx.+1).
(* U_matrix.h:702-710 — the inner loop; N_valid_pair is the size of pos_pair. *)
Definition pick_inner (vs_win pos : seq nat) (iv : nat) (o : outcome (seq (nat * nat))) (iv2 : nat)
  : outcome (seq (nat * nat)) :=
  obind o (fun l =>
    if (iv <= iv2)%N then Ok l
    else obind (flag_at (nth 0%N vs_win iv) (nth 0%N vs_win iv2)) (fun b =>
         Ok (if b then rcons l (nth 0%N pos iv, nth 0%N pos iv2) else l))).
(* U_matrix.h:698-711 — pos_pair. *)
Definition pos_pairs (vs : seq vertex) : outcome (seq (nat * nat)) :=
  let: (vs_win, pos, _) := foldl pick_step ([::], [::], 0%N) vs in
  let N := size vs_win in
  foldl (fun o iv => foldl (pick_inner vs_win pos iv) o (iota 0 N)) (Ok [::]) (iota 0 N).

Variables (R : Type) (ridx : nat -> R -> nat).         (* static_cast<int>(r*N) *)

(* U_matrix.h:684-728 — pick_up_valid_vertex_pair: the positions, N_valid_pair and the
   remaining random numbers. *)
Definition pick_valid_pair (vs : seq vertex) (rs : seq R) : outcome (seq nat * nat * seq R) :=
  obind (pos_pairs vs) (fun l =>
    if size l == 0%N then Ok ([::], 0%N, rs)
    else obind (draw rs) (fun x =>
      let k := ridx (size l) x.1 in
      if (size l <= k)%N then UB
      else Ok ([:: (nth (0, 0)%N l k).1; (nth (0, 0)%N l k).2], size l, x.2))).

(* ---- generation ---- *)

Variable U : seq (vdef [numFieldType of F]).
Variable rtime : R -> F.                 (* pred.random_time(r, beta) *)

(* U_matrix.h:593-602 — one of the two vertices. *)
Definition gen_one (t : nat) (rs : seq R) : outcome (vertex * seq R) :=
  obind (draw rs) (fun x =>
  if (size U <= t)%N then UB else
  obind (draw x.2) (fun y =>
  if density t then Throw
  else Ok ((t, ridx (vd_naf (get_vertex U t)) y.1, rtime x.1, false, 0%N), y.2))).
(* U_matrix.h:578-604 — generate_valid_vertex_pair. *)
Definition gen_valid_pair (pairs : seq (nat * nat)) (rs : seq R) : outcome (seq vertex * seq R) :=
  if size pairs == 0%N then Ok ([::], rs)
  else obind (draw rs) (fun x =>
    let k := ridx (size pairs) x.1 in
    if (size pairs <= k)%N then UB else
    let p := nth (0, 0)%N pairs k in
    obind (gen_one p.1 x.2) (fun a => obind (gen_one p.2 a.2) (fun b => Ok ([:: a.1; b.1], b.2)))).

(* U_matrix.h:644-651 — one pass of the loop of generate_itime_vertices; [valid] are the ids
   of the vertex types get_vertices(pred) returns. *)
Definition gen_any (valid : seq nat) (rs : seq R) : outcome (vertex * seq R) :=
  obind (draw rs) (fun x => obind (draw x.2) (fun y =>
  let k := ridx (size valid) y.1 in
  if (size valid <= k)%N then UB else
  let t := nth 0%N valid k in
  obind (draw y.2) (fun z =>
  Ok ((t, ridx (vd_naf (get_vertex U t)) z.1, rtime x.1, false, 0%N), z.2)))).
(* U_matrix.h:634-653 — generate_itime_vertices. *)
Fixpoint gen_loop (valid : seq nat) (n : nat) (rs : seq R) : outcome (seq vertex * seq R) :=
  if n is n'.+1 then
    obind (gen_any valid rs) (fun a => obind (gen_loop valid n' a.2) (fun b => Ok (a.1 :: b.1, b.2)))
  else Ok ([::], rs).
(* U_matrix.h:634-653 — generate_itime_vertices. *)
Definition gen_itime (valid : seq nat) (n : nat) (rs : seq R) : outcome (seq vertex * seq R) :=
  if size valid == 0%N then Ok ([::], rs) else gen_loop valid n rs.

End Win.
