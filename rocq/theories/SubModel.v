(* Model of the submatrix update: /repo/src/submatrix.hpp ("submatrix.hpp"),
   /repo/src/submatrix_impl/{common,gamma,invA}.ipp ("common.ipp", "gamma.ipp",
   "invA.ipp").
   Simplifications:
   - the element type T is an arbitrary numeric field (exact arithmetic with an
     absolute value); ALPHA_NON_INT (submatrix.hpp:23) is a parameter [ani];
   - times are an arbitrary type, the Green function an arbitrary function of the
     annihilation and the creation operator;
   - a spin state is an option: None is NON_INT_SPIN_STATE (submatrix.hpp:24);
   - the four parallel vectors of InvAMatrix are one list of rows, they are only
     changed together (submatrix.hpp:106-133, invA.ipp:22-33, 243-246);
   - the cache of Green function columns (invA.ipp:508-530) is left out: a column is
     looked up only in update_tildeG, which asks for every column once after extend
     has emptied the cache;
   - assertions and sanity checks are compiled out in the release build;
   - printing is left out;
   - an exception drops the object: what a failed call leaves behind is not modelled. *)
From mathcomp Require Import all_ssreflect ssralg ssrnum ssrint matrix.
From Verif Require Import Outcome MatLib SrcFormulaModel.

Set Implicit Arguments.
Unset Strict Implicit.
Unset Printing Implicit Defensive.

Local Open Scope ring_scope.

(* a loop over the elements of a vector, each of which may fail (invA.ipp:605-616, common.ipp:349-356) *)
Fixpoint oseq (A : Type) (l : seq (outcome A)) : outcome (seq A) :=
  if l is x :: l' then obind x (fun a => obind (oseq l') (fun r => Ok (a :: r))) else Ok [::].

Section Sub.
Variables (F : numFieldType) (Tm : eqType) (ani : F).

(* operator.hpp:44-84 — a creation or annihilation operator: flavor, site, time, small
   index. *)
Definition sop := (nat * nat * Tm * int)%type.
Variable G0 : sop -> sop -> F.

(* U_matrix.h:28-105 — vertex_definition: rank, flavors, sites, number of
   auxiliary-field states, U and alpha(af_state, rank). *)
Record vdef := VDef {
  vd_rank : nat; vd_flavors : seq nat; vd_sites : seq nat; vd_naf : nat;
  vd_U : F; vd_alpha : nat -> nat -> F }.
(* U_matrix.h:279-287 — the value of an access out of range, never used. *)
Definition vdef0 : vdef := VDef 0 [::] [::] 0 0 (fun _ _ => 0).
(* U_matrix.h:279-287 — get_vertex of general_U_matrix. *)
Variable U : seq vdef.
(* U_matrix.h:279-287 — get_vertex. *)
Definition get_vertex (t : nat) : vdef := nth vdef0 U t.

(* U_matrix.h:360-403 — itime_vertex: type, af_state, time, is_non_interacting and
   unique_id (rank and density flag are not used here). *)
Definition vertex := (nat * nat * Tm * bool * nat)%type.
(* U_matrix.h:384 — type(). *)
Definition v_type (v : vertex) := v.1.1.1.1.
(* U_matrix.h:382 — af_state(). *)
Definition v_af (v : vertex) := v.1.1.1.2.
(* U_matrix.h:386 — time(). *)
Definition v_time (v : vertex) := v.1.1.2.
(* U_matrix.h:390 — is_non_interacting(). *)
Definition v_non (v : vertex) := v.1.2.
(* U_matrix.h:395 — unique_id(). *)
Definition v_uid (v : vertex) := v.2.
(* U_matrix.h:388-393 — set_af_state, set_non_interacting, set_interacting,
   set_unique_id. *)
Definition set_state (v : vertex) (s : option nat) : vertex :=
  if s is Some a then (v_type v, a, v_time v, false, v_uid v)
  else (v_type v, v_af v, v_time v, true, v_uid v).
(* U_matrix.h:393 — set_unique_id. *)
Definition set_uid (v : vertex) (u : nat) : vertex := (v_type v, v_af v, v_time v, v_non v, u).

(* submatrix.hpp:32-40 — eval_f and gamma_func. *)
Definition eval_f (alpha : F) : F := if alpha == ani then 1 else alpha / (alpha - 1).
(* submatrix.hpp:37-40 — gamma_func. *)
Definition gamma_func (f1 f2 : F) : F := (f1 - f2) / f2.
(* util.h:44-47 — mysign. *)
Definition mysign (x : F) : F := x / `|x|.
(* resizable_matrix.hpp:420-432 — phase_of_determinant of an invertible matrix (C06). *)
Definition phase (d : F) : F := if d == 0 then 0 else d / `|d|.

(* ---- InvAMatrix ---- *)

(* submatrix.hpp:181-184 — creators_[i], annihilators_[i], alpha_[i], vertex_info_[i] =
   (type, rank, uid). *)
Definition arow := (sop * sop * F * (nat * nat * nat))%type.
(* submatrix.hpp:181 — creators_[i]. *)
Definition ar_cre (r : arow) : sop := r.1.1.1.
(* submatrix.hpp:182 — annihilators_[i]. *)
Definition ar_ann (r : arow) : sop := r.1.1.2.
(* submatrix.hpp:183 — alpha_[i]. *)
Definition ar_alpha (r : arow) : F := r.1.2.
(* submatrix.hpp:184 — the rank in vertex_info_[i]. *)
Definition ar_rank (r : arow) : nat := r.2.1.2.
(* submatrix.hpp:184 — the unique id in vertex_info_[i]. *)
Definition ar_uid (r : arow) : nat := r.2.2.
(* submatrix.hpp:183 — assignment to alpha_[i]. *)
Definition set_alpha (r : arow) (a : F) : arow := (r.1.1, a, r.2).

(* submatrix.hpp:179-184 — InvAMatrix: matrix_ (size and entries), tildeG_, rows. *)
Record inva := InvA { ia_n : nat; ia_mat : fmat F; ia_tG : fmat F; ia_rows : seq arow }.
Variables (sop0 : sop).
(* submatrix.hpp:181-184 — the value of an access out of range, never used. *)
Definition row0 : arow := (sop0, sop0, 0, (0, 0, 0)%N).
(* submatrix.hpp:181-184 — row i. *)
Definition ia_row (m : inva) (i : nat) : arow := nth row0 (ia_rows m) i.
(* invA.ipp:6-20 — the constructor. *)
Definition inva_new : inva := InvA 0 (fun _ _ => 0) (fun _ _ => 0) [::].

(* invA.ipp:22-33 — push_back_op. *)
Definition push_back_op (m : inva) (r : arow) : inva :=
  InvA (ia_n m) (ia_mat m) (ia_tG m) (rcons (ia_rows m) r).

(* the Green function between row i and column j (invA.ipp:71, 131, 525). *)
Definition ia_G0 (m : inva) : fmat F := fun i j => G0 (ar_ann (ia_row m i)) (ar_cre (ia_row m j)).

(* invA.ipp:35-79 — extend. *)
Definition ia_extend (m : inva) : inva :=
  let n := ia_n m in
  let N := size (ia_rows m) in
  let B : fmat F := fun i j =>
    - ia_G0 m (i + n)%N j * (eval_f (ar_alpha (ia_row m j)) - 1) in
  InvA N (fblocks n n (ia_mat m) (fun _ _ => 0) (fmul n (fopp B) (ia_mat m)) (@fid F)) (ia_tG m) (ia_rows m).

(* submatrix.hpp:139-147, invA.ipp:395-506 — update_tildeG: the fast formula
   (eval_Gij_col_part) for interacting columns, the product with the Green function
   for the others. *)
Definition ia_update_tG (m : inva) : inva :=
  let tG : fmat F := fun i j =>
    let a := ar_alpha (ia_row m j) in
    if a != ani then
      let fj := eval_f a in
      if i != j then fj * ia_mat m i j / (fj - 1) else (fj * ia_mat m i j - 1) / (fj - 1)
    else fmul (ia_n m) (ia_mat m) (ia_G0 m) i j in
  InvA (ia_n m) (ia_mat m) tG (ia_rows m).

(* invA.ipp:129-134 — the matrix A built from scratch. *)
Definition ia_A (m : inva) : fmat F := fun i j =>
  let f := eval_f (ar_alpha (ia_row m j)) in
  - ia_G0 m i j * (f - 1) + (if i == j then f else 0).

(* invA.ipp:104-151 — recompute_matrix: new object, phase of det(A), phase of det(1-F). *)
Definition ia_recompute (m : inva) : outcome (inva * F * F) :=
  let N := size (ia_rows m) in
  if N == 0%N then Ok (m, 1, 1)
  else if has (fun r => ar_alpha r == ani) (ia_rows m) then Throw
  else
    let sf := foldl (fun s r => s * ((1 - eval_f (ar_alpha r)) / `|1 - eval_f (ar_alpha r)|)) 1
                (ia_rows m) in
    Ok (InvA N (finv N (ia_A m)) (ia_tG m) (ia_rows m), phase (fdet N (ia_A m)), sf).

(* submatrix.hpp:77-85 — find_row_col(uid, rank); None for -1. *)
Definition find_row (m : inva) (uid rank : nat) : option nat :=
  let i := find (fun r => (ar_uid r == uid) && (ar_rank r == rank)) (ia_rows m) in
  if (i < size (ia_rows m))%N then Some i else None.
(* submatrix.hpp:87-98 — find_row_col(uid): all rows of a vertex, an exception if there
   is none. *)
Definition find_rows (m : inva) (uid : nat) : outcome (seq nat) :=
  let l := [seq i <- iota 0 (size (ia_rows m)) | ar_uid (ia_row m i) == uid] in
  if size l == 0%N then Throw else Ok l.

(* invA.ipp:235-248 — remove_rows_cols(positions): the positions are swapped to the end,
   last one first, then everything is cut. *)
Definition swap_rows (rows : seq arow) (pq : nat * nat) : seq arow :=
  [seq nth row0 rows (swapi pq.1 pq.2 i) | i <- iota 0 (size rows)].
(* invA.ipp:235-248 — remove_rows_cols(positions). *)
Definition ia_remove_at (m : inva) (rc : seq nat) : outcome inva :=
  let N := ia_n m in
  let M := size rc in
  if ~~ all (fun p => p < N)%N rc || (N < M)%N then UB
  else
    let sl := swap_list N M rc in
    Ok (InvA (N - M) (foldl (@swap_both F) (ia_mat m) sl) (ia_tG m)
          (take (N - M) (foldl swap_rows (ia_rows m) sl))).
(* invA.ipp:250-262 — remove_rows_cols(uids). *)
Definition ia_remove (m : inva) (uids : seq nat) : outcome inva :=
  obind (oseq [seq find_rows m u | u <- uids]) (fun ls =>
  let rc := flatten ls in
  if size rc == 0%N then Ok m else ia_remove_at m (sort leq rc)).

(* ---- InvGammaMatrix ---- *)

(* submatrix.hpp:254-265 — OperatorToBeUpdated without the time (not used). *)
Record opu := Opu { op_pos : nat; op_a0 : F; op_ac : F; op_an : F }.

(* submatrix.hpp:271, 323-335 — InvGammaMatrix: matrix_, row_col_info_ = (position in
   A^{-1}, alpha0, alpha), the work space of additions with its extents (nop_add, and
   the number of columns of G_n_j), rows_cols_removed and the work space of
   replacements. *)
Definition ginfo := (nat * F * F)%type.
(* submatrix.hpp:323-335 — the members. *)
Record gmat := GM {
  gm_n : nat; gm_mat : fmat F; gm_info : seq ginfo;
  gm_nn : fmat F; gm_nj : fmat F; gm_jn : fmat F; gm_add : nat; gm_kept : nat;
  gm_rem : seq nat; gm_work : option (fmat F * fmat F) }.
(* submatrix.hpp:273 — the constructor. *)
Definition gmat_new : gmat :=
  GM 0 (fun _ _ => 0) [::] (fun _ _ => 0) (fun _ _ => 0) (fun _ _ => 0) 0 0 [::] None.
(* submatrix.hpp:271 — the value of an access out of range, never used. *)
Definition info0 : ginfo := (0%N, 0, 0).
(* submatrix.hpp:298-301 — pos_in_invA. *)
Definition gi_pos (x : ginfo) : nat := x.1.1.
(* submatrix.hpp:303-306 — alpha0. *)
Definition gi_a0 (x : ginfo) : F := x.1.2.
(* submatrix.hpp:308-311 — alpha. *)
Definition gi_a (x : ginfo) : F := x.2.
(* gamma.ipp:25-27, 147 — the small gamma of a row. *)
Definition small_gamma (a a0 : F) : F := gamma_func (eval_f a) (eval_f a0).

(* std::vector::resize (gamma.ipp:201). *)
Definition vresize (A : Type) (x0 : A) (n : nat) (l : seq A) : seq A :=
  take n l ++ nseq (n - size l) x0.

(* gamma.ipp:74-77, 88-96 — clear. *)
Definition gm_clear (g : gmat) : gmat :=
  GM 0 (gm_mat g) [::] (gm_nn g) (gm_nj g) (gm_jn g) (gm_add g) (gm_kept g) (gm_rem g) (gm_work g).

(* gamma.ipp:7-18 — find_row_col_gamma. *)
Definition find_gamma (g : gmat) (p : nat) : outcome nat :=
  let i := find (fun x => gi_pos x == p) (gm_info g) in
  if (i < size (gm_info g))%N then Ok i else Throw.

(* gamma.ipp:98-152 — try_add: the object with the pending rows, and the ratio. *)
Definition gm_try_add (m : inva) (g : gmat) (ops : seq opu) : gmat * F :=
  let nop := gm_n g in
  let nadd := size ops in
  let gp := foldl (fun s o => s * - small_gamma (op_an o) (op_a0 o)) 1 ops in
  let info := gm_info g ++ [seq (op_pos o, op_a0 o, op_an o) | o <- ops] in
  let pos i := gi_pos (nth info0 info i) in
  let tG := ia_tG m in
  let nj : fmat F := fun i j => tG (pos (i + nop)%N) (pos j) in
  let jn : fmat F := fun i j => tG (pos i) (pos (j + nop)%N) in
  let nn : fmat F := fun i j =>
    tG (pos (i + nop)%N) (pos (j + nop)%N)
    - (if i == j then
         let x := nth info0 info (i + nop)%N in
         let sg := small_gamma (gi_a x) (gi_a0 x) in (1 + sg) / sg
       else 0) in
  (GM nop (gm_mat g) info nn nj jn nadd nop (gm_rem g) (gm_work g),
   gp * src_det_ratio_up nop nadd jn nj nn (gm_mat g)).

(* gamma.ipp:154-159 — perform_add; blocks of other extents than the matrix: UB. *)
Definition gm_perform_add (g : gmat) : outcome gmat :=
  if gm_kept g != gm_n g then UB
  else obind (src_inverse_up2 (gm_n g) (gm_add g) (gm_jn g) (gm_nj g) (gm_nn g) (gm_mat g)) (fun r =>
       Ok (GM r.1.1 r.1.2 (gm_info g) (gm_nn g) (gm_nj g) (gm_jn g) (gm_add g) (gm_kept g)
             (gm_rem g) (gm_work g))).

(* gamma.ipp:161-164, 285-288 — reject_add, reject_add_remove. *)
Definition gm_reject_add (g : gmat) : gmat :=
  GM (gm_n g) (gm_mat g) (vresize info0 (gm_n g) (gm_info g)) (gm_nn g) (gm_nj g) (gm_jn g)
     (gm_add g) (gm_kept g) (gm_rem g) (gm_work g).

(* gamma.ipp:166-186 — try_remove. *)
Definition gm_try_remove (g : gmat) (ops : seq opu) : outcome (gmat * F) :=
  let nrem := size ops in
  let gp := foldl (fun s o => s * - small_gamma (op_ac o) (op_a0 o)) 1 ops in
  obind (oseq [seq find_gamma g (op_pos o) | o <- ops]) (fun l =>
  let rc := sort leq l in
  Ok (GM (gm_n g) (gm_mat g) (gm_info g) (gm_nn g) (gm_nj g) (gm_jn g) (gm_add g) (gm_kept g)
        rc (gm_work g),
      src_det_ratio_down nrem rc (gm_mat g) / gp)).

(* gamma.ipp:197-201 — the rows follow the exchanges. *)
Definition swap_info (info : seq ginfo) (pq : nat * nat) : seq ginfo :=
  [seq nth info0 info (swapi pq.1 pq.2 i) | i <- iota 0 (size info)].

(* gamma.ipp:188-202 — perform_remove. *)
Definition gm_perform_remove (g : gmat) : outcome gmat :=
  let nop := gm_n g in
  let nrem := size (gm_rem g) in
  obind (src_inverse_down nop nrem (gm_rem g) (gm_mat g)) (fun r =>
  let: (n', mat', sl, _) := r in
  Ok (GM n' mat' (vresize info0 (nop - nrem) (foldl swap_info (gm_info g) sl))
        (gm_nn g) (gm_nj g) (gm_jn g) (gm_add g) (gm_kept g) (gm_rem g) (gm_work g))).

(* gamma.ipp:20-41 — eval_Gammaij. *)
Definition eval_gamma (m : inva) (info : seq ginfo) : fmat F := fun i j =>
  let x := nth info0 info i in let y := nth info0 info j in
  let t := ia_tG m (gi_pos x) (gi_pos y) in
  if i == j then
    let sg := small_gamma (gi_a x) (gi_a0 x) in t - (1 + sg) / sg
  else t.

(* gamma.ipp:209-264 — try_add_remove. *)
Definition gm_try_add_remove (m : inva) (g : gmat) (ins rem : seq opu) : outcome (gmat * F) :=
  let nop := gm_n g in
  let nadd := size ins in
  let nrem := size rem in
  let kept := (nop - nrem)%N in
  let gpr := foldl (fun s o => s * - small_gamma (op_ac o) (op_a0 o)) 1 rem in
  obind (oseq [seq find_gamma g (op_pos o) | o <- rem]) (fun l =>
  let rc := sort leq l in
  if (nop < nrem)%N then UB else
  let sl := swap_list nop nrem rc in
  let mat := foldl (@swap_both F) (gm_mat g) sl in
  let gpa := foldl (fun s o => s * - small_gamma (op_an o) (op_a0 o)) 1 ins in
  let info := foldl swap_info (gm_info g) sl ++ [seq (op_pos o, op_a0 o, op_an o) | o <- ins] in
  let e := eval_gamma m info in
  let nj : fmat F := fun i j => e (nop + i)%N j in
  let jn : fmat F := fun i j => e i (nop + j)%N in
  let nn : fmat F := fun i j => e (nop + i)%N (nop + j)%N in
  let r := src_ratio_replace_rows_cols kept nadd nrem mat jn nj nn in
  Ok (GM nop mat info nn nj jn nadd kept rc (if r.2 is Some w then Some w else gm_work g),
      gpa / gpr * r.1)).

(* gamma.ipp:266-283 — perform_add_remove; [junk] is the content of freshly resized
   memory. *)
Definition gm_perform_add_remove (junk : fmat F) (g : gmat) : outcome gmat :=
  let nop := gm_n g in
  let nadd := gm_add g in
  let kept := gm_kept g in
  obind (src_inverse_replace_rows_cols junk kept nadd (gm_jn g) (gm_nj g) (gm_nn g) (gm_work g)) (fun r =>
  let info := [seq nth info0 (gm_info g) i | i <- iota 0 kept] ++
              [seq nth info0 (gm_info g) (nop + i) | i <- iota 0 nadd] in
  Ok (GM r.1 r.2 info (gm_nn g) (gm_nj g) (gm_jn g) (gm_add g) (gm_kept g) (gm_rem g) (gm_work g))).

(* ---- InvAMatrix::update_matrix ---- *)

(* invA.ipp:264-325 — update_matrix. *)
Definition ia_update (m : inva) (g : gmat) : outcome inva :=
  let nop := gm_n g in
  let N := ia_n m in
  if nop == 0%N then Ok m
  else
    let pl := [seq gi_pos (nth info0 (gm_info g) l) | l <- iota 0 nop] in
    let invA0 : fmat F := fun l j => ia_mat m (nth 0%N pl l) j in
    let left : fmat F := fun i l => ia_tG m i (nth 0%N pl l) in
    let prod := fmul nop (fopp left) (gm_mat g) in
    let mat := fadd (ia_mat m) (fmul nop prod invA0) in
    let infos := [seq nth info0 (gm_info g) l | l <- iota 0 nop] in
    if has (fun x => gi_a x == gi_a0 x) infos then Throw
    else
      let mat' := foldl (fun (a : fmat F) x i j =>
          if i == gi_pos x then
            a i j * (1 / (1 + gamma_func (eval_f (gi_a x)) (eval_f (gi_a0 x))))
          else a i j) mat infos in
      let rows := foldl (fun rs x =>
          if (gi_pos x < size rs)%N then set_nth row0 rs (gi_pos x) (set_alpha (nth row0 rs (gi_pos x)) (gi_a x))
          else rs) (ia_rows m) infos in
      Ok (InvA N mat' (ia_tG m) rows).

(* invA.ipp:327-346 — compute_M. *)
Definition ia_compute_M (m : inva) : fmat F := fun i j =>
  (1 - eval_f (ar_alpha (ia_row m i))) * ia_mat m i j.

(* ---- SubmatrixUpdate ---- *)

(* submatrix.hpp:427-452 — the members. *)
Record sub := Sub {
  su_trying : bool;                 (* state == TRYING_SPIN_FLIP *)
  su_A : seq inva; su_G : seq gmat;
  su_v : seq vertex; su_v0 : seq vertex;
  su_sdet : F; su_sign : F; su_det_rat : F; su_sign_rat : F;
  su_rem : seq (seq opu); su_ins : seq (seq opu); su_rep : seq (seq opu);
  su_id : nat }.
(* common.ipp:3-21 — the constructor of the empty object (det_rat_A and sign_rat are not
   initialised there). *)
Definition sub_new (nf : nat) (junk : F) : sub :=
  Sub false (nseq nf inva_new) (nseq nf gmat_new) [::] [::] 1 1 junk junk
      (nseq nf [::]) (nseq nf [::]) (nseq nf [::]) 0.

(* U_matrix.h:279-287, invA.ipp:180-190, 213-224, common.ipp:216-236 — the vertex and
   its flavors are used as indices without a check. *)
Definition type_ok (nf : nat) (t : nat) : bool :=
  [&& (t < size U)%N, (vd_rank (get_vertex t) <= size (vd_flavors (get_vertex t)))%N,
      (2 * vd_rank (get_vertex t) <= size (vd_sites (get_vertex t)))%N &
  all (fun r => nth 0%N (vd_flavors (get_vertex t)) r < nf)%N (iota 0 (vd_rank (get_vertex t)))].

(* invA.ipp:183-189, 216-223 — the row of a vertex for one rank. *)
Definition vrow (v : vertex) (alpha : F) (rank : nat) : arow :=
  let d := get_vertex (v_type v) in
  let fl := nth 0%N (vd_flavors d) rank in
  let op site : sop := (fl, site, v_time v, - rank%:Z) in
  (op (nth 0%N (vd_sites d) (2 * rank)%N), op (nth 0%N (vd_sites d) (2 * rank + 1)%N), alpha,
   (v_type v, rank, v_uid v)).
(* invA.ipp:183, 216 — vdef.flavors()[rank]. *)
Definition vflavor (v : vertex) (rank : nat) : nat :=
  nth 0%N (vd_flavors (get_vertex (v_type v))) rank.

(* sub_matrices_[fl].push_back_op(...) (invA.ipp:184-189, 217-223) *)
Definition push_flavor (As : seq inva) (fl : nat) (r : arow) : seq inva :=
  set_nth inva_new As fl (push_back_op (nth inva_new As fl) r).
(* invA.ipp:180-190, 213-224 — all ranks of a vertex. *)
Definition push_vertex (alpha : vertex -> nat -> F) (As : seq inva) (v : vertex) : seq inva :=
  foldl (fun As r => push_flavor As (vflavor v r) (vrow v (alpha v r) r)) As
        (iota 0 (vd_rank (get_vertex (v_type v)))).

(* common.ipp:108-139 — init_update; invA.ipp:172-197 — add_non_interacting_vertices. *)
Definition number_vertices (id : nat) (new : seq vertex) : seq vertex :=
  [seq set_uid (set_state x.1 None) x.2 | x <- zip new (iota id.+1 (size new))].
(* common.ipp:108-139 — init_update. *)
Definition init_update (s : sub) (new : seq vertex) : outcome sub :=
  let nf := size (su_A s) in
  if ~~ all (fun v => type_ok nf (v_type v)) new then UB
  else
    let added := number_vertices (su_id s) new in
    let vs := su_v s ++ added in
    let As := if size new == 0%N then su_A s
              else map ia_extend (foldl (push_vertex (fun _ _ => ani)) (su_A s) added) in
    Ok (Sub true (map ia_update_tG As) (su_G s) vs vs (su_sdet s) (su_sign s) (su_det_rat s)
          (su_sign_rat s) (su_rem s) (su_ins s) (su_rep s) (su_id s + size new)).

(* common.ipp:227-235 — the alphas of a vertex in a given state. *)
Definition alpha_of (d : vdef) (st : option nat) (rank : nat) : F :=
  if st is Some a then vd_alpha d a rank else ani.
(* common.ipp:227-235 — the state of a vertex, None for NON_INT_SPIN_STATE. *)
Definition v_state (v : vertex) : option nat := if v_non v then None else Some (v_af v).

(* U_matrix.h:362-370 — the value of an access out of range, never used. *)
Definition vertex0 (tm0 : Tm) : vertex := (0, 0, tm0, false, 0)%N.
(* one pass of the loops at common.ipp:210-264: flavor and OperatorToBeUpdated for every
   rank of the vertex at position iv. *)
Definition flip_elems (s : sub) (tm0 : Tm) (iv : nat) (sp : option nat) : outcome (seq (nat * opu)) :=
  let v := nth (vertex0 tm0) (su_v s) iv in
  let v0 := nth (vertex0 tm0) (su_v0 s) iv in
  let d := get_vertex (v_type v) in
  oseq [seq (let fl := vflavor v r in
             match find_row (nth inva_new (su_A s) fl) (v_uid v) r with
             | Some p => Ok (fl, Opu p (alpha_of d (v_state v0) r) (alpha_of d (v_state v) r) (alpha_of d sp r))
             | None => UB
             end) | r <- iota 0 (vd_rank d)].

(* common.ipp:240-253 — which list an operator goes to. *)
Definition goes_rem (o : opu) : bool := (op_a0 o != op_ac o) && (op_a0 o == op_an o).
(* common.ipp:240-253 — the operator is inserted. *)
Definition goes_ins (o : opu) : bool := (op_a0 o == op_ac o) && (op_a0 o != op_an o).
(* common.ipp:240-253 — the operator is replaced. *)
Definition goes_rep (o : opu) : bool :=
  [&& op_a0 o != op_ac o, op_a0 o != op_an o & op_ac o != op_an o].
(* common.ipp:240-253 — the lists of all flavors. *)
Definition pick (nf : nat) (p : pred opu) (l : seq (nat * opu)) : seq (seq opu) :=
  [seq [seq x.2 | x <- l & (x.1 == fl) && p x.2] | fl <- iota 0 nf].

(* common.ipp:255-262 — one factor of f_rat. *)
Definition f_step (s : F) (o : opu) : F :=
  if op_ac o != op_an o then
    let s1 := if op_an o != ani then s * (1 - eval_f (op_an o)) else s in
    if op_ac o != ani then s1 / (1 - eval_f (op_ac o)) else s1
  else s.
(* common.ipp:218-222 — one factor of U_rat. *)
Definition U_step (vs : seq vertex) (tm0 : Tm) (s : F) (x : nat * option nat) : F :=
  let v := nth (vertex0 tm0) vs x.1 in
  let u := vd_U (get_vertex (v_type v)) in
  if v_non v && (x.2 != None) then s * - u
  else if ~~ v_non v && (x.2 == None) then s / - u
  else s.

(* common.ipp:266-284 — one flavor of the loop computing det_rat_A. *)
Definition try_flavor (m : inva) (g : gmat) (rem ins rep : seq opu) : outcome (gmat * F) :=
  match size rem == 0%N, size ins == 0%N, size rep == 0%N with
  | true, true, true => Ok (g, 1)
  | true, false, true => Ok (gm_try_add m g ins)
  | false, true, true => gm_try_remove g rem
  | false, false, true => gm_try_add_remove m g ins rem
  | _, _, false => Throw
  end.

(* a request is well indexed (otherwise the loops read out of range) (common.ipp:210-222) *)
Definition flip_ok (vs : seq vertex) (tm0 : Tm) (x : nat * option nat) : bool :=
  (x.1 < size vs)%N &&
  (if x.2 is Some a then (a < vd_naf (get_vertex (v_type (nth (vertex0 tm0) vs x.1))))%N else true).

(* common.ipp:179-289 — try_spin_flip: new object and the three ratios. *)
Definition try_spin_flip (s : sub) (tm0 : Tm) (req : seq (nat * option nat))
  : outcome (sub * (F * F * F)) :=
  let nf := size (su_A s) in
  if ~~ (all (flip_ok (su_v s) tm0) req && all (fun x => x.1 < size (su_v0 s))%N req) then UB
  else
  obind (oseq [seq flip_elems s tm0 x.1 x.2 | x <- req]) (fun ls =>
  let l := flatten ls in
  let f_rat := foldl (fun a x => f_step a x.2) 1 l in
  let U_rat := foldl (U_step (su_v s) tm0) 1 req in
  let rem := pick nf goes_rem l in
  let ins := pick nf goes_ins l in
  let rep := pick nf goes_rep l in
  obind (oseq [seq try_flavor (nth inva_new (su_A s) fl) (nth gmat_new (su_G s) fl)
                     (nth [::] rem fl) (nth [::] ins fl) (nth [::] rep fl) | fl <- iota 0 nf]) (fun rs =>
  let det_rat := foldl (fun a x => a * x.2) 1 rs in
  let sign_rat := mysign det_rat * mysign U_rat / mysign f_rat in
  Ok (Sub (su_trying s) (su_A s) [seq x.1 | x <- rs] (su_v s) (su_v0 s) (su_sdet s) (su_sign s)
        det_rat sign_rat rem ins rep (su_id s),
      (det_rat, 1 / f_rat, U_rat)))).

(* common.ipp:295-310 — one flavor of perform_spin_flip. *)
Definition perform_flavor (junk : fmat F) (g : gmat) (rem ins rep : seq opu) : outcome gmat :=
  match size rem == 0%N, size ins == 0%N, size rep == 0%N with
  | true, true, true => Ok g
  | true, false, true => gm_perform_add g
  | false, true, true => gm_perform_remove g
  | false, false, true => gm_perform_add_remove junk g
  | _, _, false => Throw
  end.

(* common.ipp:312-319 — the vertices after the flip. *)
Definition flip_vertices (tm0 : Tm) (vs : seq vertex) (req : seq (nat * option nat)) : seq vertex :=
  foldl (fun vs x => set_nth (vertex0 tm0) vs x.1 (set_state (nth (vertex0 tm0) vs x.1) x.2)) vs req.

(* common.ipp:291-325 — perform_spin_flip. *)
Definition perform_spin_flip (junk : fmat F) (tm0 : Tm) (s : sub) (req : seq (nat * option nat)) : outcome sub :=
  let nf := size (su_A s) in
  if ~~ all (fun x => x.1 < size (su_v s))%N req then UB
  else
  obind (oseq [seq perform_flavor junk (nth gmat_new (su_G s) fl)
                     (nth [::] (su_rem s) fl) (nth [::] (su_ins s) fl) (nth [::] (su_rep s) fl)
              | fl <- iota 0 nf]) (fun gs =>
  Ok (Sub (su_trying s) (su_A s) gs (flip_vertices tm0 (su_v s) req) (su_v0 s)
        (su_sdet s * mysign (su_det_rat s)) (su_sign s * su_sign_rat s) (su_det_rat s) (su_sign_rat s)
        (su_rem s) (su_ins s) (su_rep s) (su_id s))).

(* common.ipp:331-345 — one flavor of reject_spin_flip. *)
Definition reject_flavor (g : gmat) (rem ins rep : seq opu) : outcome gmat :=
  match size rem == 0%N, size ins == 0%N, size rep == 0%N with
  | true, true, true => Ok g
  | true, false, true => Ok (gm_reject_add g)
  | false, true, true => Ok g
  | false, false, true => Ok (gm_reject_add g)
  | _, _, false => Throw
  end.
(* common.ipp:327-347 — reject_spin_flip. *)
Definition reject_spin_flip (s : sub) : outcome sub :=
  let nf := size (su_A s) in
  obind (oseq [seq reject_flavor (nth gmat_new (su_G s) fl)
                     (nth [::] (su_rem s) fl) (nth [::] (su_ins s) fl) (nth [::] (su_rep s) fl)
              | fl <- iota 0 nf]) (fun gs =>
  Ok (Sub (su_trying s) (su_A s) gs (su_v s) (su_v0 s) (su_sdet s) (su_sign s) (su_det_rat s)
        (su_sign_rat s) (su_rem s) (su_ins s) (su_rep s) (su_id s))).

(* common.ipp:141-177 — finalize_update; invA.ipp:535-550. *)
Definition finalize_update (s : sub) : outcome sub :=
  let nf := size (su_A s) in
  obind (oseq [seq ia_update (nth inva_new (su_A s) fl) (nth gmat_new (su_G s) fl) | fl <- iota 0 nf]) (fun As1 =>
  let uids := [seq v_uid v | v <- su_v s & v_non v] in
  let vs := [seq v <- su_v s | ~~ v_non v] in
  obind (oseq [seq ia_remove m uids | m <- As1]) (fun As2 =>
  let gs := map gm_clear (su_G s) in
  if has (fun m => has (fun r => ar_alpha r == ani) (ia_rows m)) As2 then Throw
  else Ok (Sub false As2 gs vs (su_v0 s) (su_sdet s) (su_sign s) (su_det_rat s) (su_sign_rat s)
             (su_rem s) (su_ins s) (su_rep s) (su_id s)))).

(* invA.ipp:605-616 — InvAMatrixFlavors::recompute_matrix. *)
Definition recompute_flavors (As : seq inva) : outcome (seq inva * F * F) :=
  obind (oseq [seq ia_recompute m | m <- As]) (fun rs =>
  Ok ([seq x.1.1 | x <- rs], foldl (fun a x => a * x.1.2) 1 rs, foldl (fun a x => a * x.2) 1 rs)).

(* common.ipp:77-105 — recompute_matrix (the report of deviations is left out). *)
Definition recompute_matrix (s : sub) : outcome sub :=
  if su_trying s then Throw
  else
  obind (recompute_flavors (su_A s)) (fun r =>
  let: (As, sdet, fs) := r in
  let sign := foldl (fun a v => a * mysign (- vd_U (get_vertex (v_type v)))) (sdet / fs) (su_v s) in
  Ok (Sub false As (su_G s) (su_v s) (su_v0 s) sdet sign (su_det_rat s) (su_sign_rat s)
        (su_rem s) (su_ins s) (su_rep s) (su_id s))).

(* common.ipp:23-49 — the constructor from a list of vertices; invA.ipp:200-232 — init. *)
Definition sub_from (nf : nat) (junk : F) (vs0 : seq vertex) : outcome sub :=
  if size vs0 == 0%N then Ok (sub_new nf junk)
  else if ~~ all (fun v => type_ok nf (v_type v)) vs0 then UB
  else if ~~ all (fun v => v_non v || (v_af v < vd_naf (get_vertex (v_type v)))%N) vs0 then UB
  else
    let vs := [seq set_uid x.1 x.2 | x <- zip vs0 (iota 1 (size vs0))] in
    let As := foldl (push_vertex (fun v r => alpha_of (get_vertex (v_type v)) (v_state v) r)) (nseq nf inva_new) vs in
    let us := foldl (fun a v => a * mysign (- vd_U (get_vertex (v_type v)))) 1 vs in
    obind (recompute_flavors As) (fun r =>
    let: (As', sdet, fs) := r in
    Ok (Sub false As' (nseq nf gmat_new) vs [::] sdet (mysign (sdet * us / fs)) junk junk
          (nseq nf [::]) (nseq nf [::]) (nseq nf [::]) (size vs0))).

(* common.ipp:349-356 — compute_M. *)
Definition compute_M (s : sub) : seq (nat * fmat F) :=
  [seq (ia_n m, ia_compute_M m) | m <- su_A s].

(* common.ipp:372-377 — the matrix inverted by compute_M_from_scratch. *)
Definition ia_G0_alpha (m : inva) : fmat F := fun i j =>
  ia_G0 m i j - (if i == j then ar_alpha (ia_row m j) else 0).
(* common.ipp:361-394 — compute_M_from_scratch: matrices, sign and weight. *)
Definition compute_M_scratch (s : sub) : seq (nat * fmat F) * F * F :=
  let us := [seq - vd_U (get_vertex (v_type v)) | v <- su_v s & ~~ v_non v] in
  let ds := [seq fdet (ia_n m) (ia_G0_alpha m) | m <- su_A s & (0 < ia_n m)%N] in
  ([seq (ia_n m, finv (ia_n m) (ia_G0_alpha m)) | m <- su_A s],
   foldl (fun a u => a * mysign u) (foldl (fun a d => a * mysign d) 1 ds) us,
   foldl (fun a u => a * u) (foldl (fun a d => a * d) 1 ds) us).

End Sub.
