(* Property theorems: C37 - C41 (interaction input, vertex list, random selection). *)
From Coq Require Import ZArith NArith.
From mathcomp Require Import all_ssreflect ssralg ssrnum ssrint rat.
From mathcomp Require Import zify.
From Verif Require Import Outcome MatLib SubModel SubSpec SubProofs Prop_Sub UMatModel UMatSpec UMatProofs.

Set Implicit Arguments.
Unset Strict Implicit.
Unset Printing Implicit Defensive.

Local Open Scope ring_scope.

(* ------------------------------------------------------------------ C37 *)

(* Two flavors: one term per site, coupling the two flavors on that site. *)
Theorem C37_two_flavors :
  forall (F : numFieldType) (ns : nat) (u delta : F),
  exists vl, [/\ set_onsite_U ns 2 u delta = Ok vl, size vl = ns &
    forall i, (i < ns)%N ->
      let: (d, id) := nth (vdef0 F, 0%N) vl i in
      [/\ [/\ id = i, vd_rank d = 2%N, vd_naf d = 2%N & vd_U d = u], vd_flavors d = [:: 0%N; 1%N],
          vd_sites d = [:: i; i; i; i],
          (vd_alpha d 0 0 = 1 + delta /\ vd_alpha d 0 1 = - delta) /\
          (vd_alpha d 1 0 = - delta /\ vd_alpha d 1 1 = 1 + delta) &
          indices_ok ns 2 d /\ is_density d]].
Proof.
move=> F ns u delta.
have [vl [h1 h2 h3 h4]] := @onsite_ok F ns 2%N u delta isT.
rewrite /= in h2; exists vl; split=> // i hi; rewrite -h2 in hi; move: (h4 i hi).
have : nth 0%N [seq x.2 | x <- vl] i = i by rewrite h3 nth_iota.
rewrite (nth_map (vdef0 F, 0%N)) //; case: (nth _ vl i) => d id /= -> [[er en] e1 e2 eu al].
rewrite /= in h2 e1 e2; split=> //; first by rewrite !al.
by rewrite /indices_ok /is_density er e1 e2 /= -h2 hi !eqxx.
Qed.
Print Assumptions C37_two_flavors.

(* One flavor: one term per pair of sites 2i, 2i+1. *)
Theorem C37_one_flavor :
  forall (F : numFieldType) (ns : nat) (u delta : F),
  exists vl, [/\ set_onsite_U ns 1 u delta = Ok vl, size vl = (ns %/ 2)%N &
    forall i, (i < ns %/ 2)%N ->
      let: (d, id) := nth (vdef0 F, 0%N) vl i in
      [/\ [/\ id = i, vd_rank d = 2%N, vd_naf d = 2%N & vd_U d = u], vd_flavors d = [:: 0%N; 0%N],
          vd_sites d = [:: i.*2; i.*2; i.*2.+1; i.*2.+1],
          (vd_alpha d 0 0 = 1 + delta /\ vd_alpha d 0 1 = - delta) /\
          (vd_alpha d 1 0 = - delta /\ vd_alpha d 1 1 = 1 + delta) &
          indices_ok ns 1 d /\ is_density d]].
Proof.
move=> F ns u delta.
have [vl [h1 h2 h3 h4]] := @onsite_ok F ns 1%N u delta isT.
rewrite /= in h2; exists vl; split=> // i hi; rewrite -h2 in hi; move: (h4 i hi).
have : nth 0%N [seq x.2 | x <- vl] i = i by rewrite h3 nth_iota.
rewrite (nth_map (vdef0 F, 0%N)) //; case: (nth _ vl i) => d id /= -> [[er en] e1 e2 eu al].
rewrite /= in h2 e1 e2.
have hs : (i.*2.+1 < ns)%N by move: hi; rewrite h2; lia.
rewrite mul2n in e2; split=> //; first by rewrite !al.
by rewrite /indices_ok /is_density er e1 e2 /= hs (ltnW hs) !eqxx.
Qed.
Print Assumptions C37_one_flavor.

(* Any other number of flavors is refused. *)
Theorem C37_other_flavors :
  forall (F : numFieldType) (ns nf : nat) (u delta : F),
    nf <> 1%N -> nf <> 2%N -> set_onsite_U ns nf u delta = Throw.
Proof. by move=> F ns nf u delta /eqP h1 /eqP h2; rewrite /set_onsite_U h1 h2. Qed.
Print Assumptions C37_other_flavors.

(* The terms are split by density type without losing or duplicating any. *)
Theorem C37_density_split :
  forall (F : numFieldType) (vl : seq (udef F)),
    [/\ (split_density vl).1 = [seq v <- vl | ~~ is_density v.1],
        (split_density vl).2 = [seq v <- vl | is_density v.1] &
        (forall d : vdef F, is_density d <->
          forall r, (r < vd_rank d)%N -> nth 0%N (vd_sites d) (2 * r) = nth 0%N (vd_sites d) (2 * r + 1)) /\
        (forall d : vdef F, is_truely_non_density d <->
          forall r, (r < vd_rank d)%N -> nth 0%N (vd_sites d) (2 * r) <> nth 0%N (vd_sites d) (2 * r + 1))].
Proof.
move=> F vl; rewrite split_densityE; split=> //; split=> d.
  split=> [h r hr|h]; last first.
    by apply/allP => r; rewrite mem_iota => /h /=; rewrite addn1 => ->.
  by rewrite addn1; apply/eqP; apply: (allP h); rewrite mem_iota.
rewrite /is_truely_non_density.
have -> : foldl (fun fl r => fl && (nth 0%N (vd_sites d) (2 * r) != nth 0%N (vd_sites d) (2 * r).+1)) true
   (iota 0 (vd_rank d)) = all (fun r => nth 0%N (vd_sites d) (2 * r) != nth 0%N (vd_sites d) (2 * r).+1) (iota 0 (vd_rank d)).
  rewrite -[RHS]andTb; elim: (iota _ _) true => [|r l ih] b /=; first by rewrite andbT.
  by rewrite ih andbA.
split=> [h r hr|h].
  by rewrite addn1; apply/eqP; apply: (allP h); rewrite mem_iota.
by apply/allP => r; rewrite mem_iota => /h /=; rewrite addn1 => /eqP.
Qed.
Print Assumptions C37_density_split.

Example C37_case : exists vl, [/\ set_onsite_U (F := [numFieldType of rat]) 3 2 4%:R 1 = Ok vl,
  size vl = 3%N & vd_sites (nth (vdef0 _, 0%N) vl 2).1 = [:: 2; 2; 2; 2]%N].
Proof.
have [vl [h1 h2 h3]] := @C37_two_flavors [numFieldType of rat] 3 4%:R 1.
exists vl; split=> //; move: (h3 2%N isT); case: (nth _ vl 2) => d id /=.
by move=> [_ _ -> _ _].
Qed.

(* ------------------------------------------------------------------ C38 *)

(* A well-formed file whose sites and flavors are in range is read exactly. *)
Theorem C38_reads_what_is_written :
  forall (F : numFieldType) (C : Type) (cast : C -> F) (ofint : int -> C) (c0 : C) (maxel w64 w32 ns nf : nat)
         (ts : seq (term C)) (rest : seq (token C)),
    (size ts < w32)%N -> all (wf_term w64 w32 maxel) ts -> all (in_range ns nf) ts ->
    exists vl, [/\ load_vertices cast ofint c0 maxel w64 w32 ns nf (file_text ts ++ rest) = Ok vl,
      size vl = size ts, [seq x.2 | x <- vl] = iota 0 (size ts) &
      forall i t0, (i < size ts)%N -> describes cast c0 (nth (vdef0 F, 0%N) vl i).1 (nth t0 ts i)].
Proof. by move=> *; exact: load_ok. Qed.
Print Assumptions C38_reads_what_is_written.

(* One site or flavor out of range anywhere, and the file is refused. *)
Theorem C38_out_of_range :
  forall (F : numFieldType) (C : Type) (cast : C -> F) (ofint : int -> C) (c0 : C) (maxel w64 w32 ns nf : nat)
         (ts : seq (term C)) (rest : seq (token C)),
    (size ts < w32)%N -> all (wf_term w64 w32 maxel) ts -> ~~ all (in_range ns nf) ts ->
    load_vertices cast ofint c0 maxel w64 w32 ns nf (file_text ts ++ rest) = Throw.
Proof. by move=> *; exact: load_bad. Qed.
Print Assumptions C38_out_of_range.

(* Whatever the file, if it is accepted then every stored index is in range. *)
Theorem C38_accepted_in_range :
  forall (F : numFieldType) (C : Type) (cast : C -> F) (ofint : int -> C) (c0 : C) (maxel w64 w32 ns nf : nat)
         (file : seq (token C)) (vl : seq (udef F)),
    load_vertices cast ofint c0 maxel w64 w32 ns nf file = Ok vl ->
    [seq x.2 | x <- vl] = iota 0 (size vl) /\
    forall i, (i < size vl)%N -> indices_ok ns nf (nth (vdef0 F, 0%N) vl i).1.
Proof. by move=> *; apply: load_range; eassumption. Qed.
Print Assumptions C38_accepted_in_range.

(* The first column is not looked at: a repeated index is accepted. *)
Definition hub (C : Type) (u : C) (idx site : nat) : term C :=
  Term idx [:: 0; 1]%N (nseq 4 site) 2 u [:: [:: u; u]; [:: u; u]].
Theorem C38_repeated_index_refuted :
  exists ts : seq (term int),
    (nth 0%N [seq t_idx t | t <- ts] 0 = nth 0%N [seq t_idx t | t <- ts] 1) /\
    forall (w64 w32 maxel : nat), (9 < w64)%N -> (9 < w32)%N -> (9 < maxel)%N ->
    exists vl, load_vertices (F := [numFieldType of rat]) (fun z => z%:~R) id 0 maxel w64 w32 2 2 (file_text ts) = Ok vl /\
      size vl = 2%N.
Proof.
exists [:: hub (1 : int) 0 0; hub (1 : int) 0 1]; split=> // w64 w32 maxel h1 h2 h3.
have [||| vl [e1 e2 _ _]] := @load_ok [numFieldType of rat] int (fun z => z%:~R) id 0 maxel w64 w32 2 2
   [:: hub (1 : int) 0 0; hub (1 : int) 0 1] [::] => //.
- by rewrite /=; lia.
- by rewrite /wf_term /t_rank /=; lia.
by exists vl; rewrite -[file_text _]cats0.
Qed.
Print Assumptions C38_repeated_index_refuted.

(* Reading past the end leaves the values of the previous term: a file that announces two
   terms and holds one is accepted and counts the term twice. *)
Theorem C38_truncated_refuted :
  exists file : seq (token int),
    file = nums int [:: 2%N] ++ term_text (hub (1 : int) 0 0) /\
    forall (w64 w32 maxel : nat), (9 < w64)%N -> (9 < w32)%N -> (9 < maxel)%N ->
    exists vl, load_vertices (F := [numFieldType of rat]) (fun z => z%:~R) id 0 maxel w64 w32 2 2 file = Ok vl /\
      size vl = 2%N /\ [seq vd_sites x.1 | x <- vl] = [:: nseq 4 0%N; nseq 4 0%N].
Proof.
exists (nums int [:: 2%N] ++ term_text (hub (1 : int) 0 0)); split=> // w64 w32 maxel h1 h2 h3.
have a64 k : (k < 9)%N -> (k < w64)%N = true by lia.
have a32 k : (k < 9)%N -> (k < w32)%N = true by lia.
have r64 (k : nat) r old : (k < 9)%N -> read_uint w64 (true, TInt int k :: r) old = (Some k, (true, r)).
  by move=> h; apply: read_nat; apply: a64.
have r32 (k : nat) r old : (k < 9)%N -> read_uint w32 (true, TInt int k :: r) old = (Some k, (true, r)).
  by move=> h; apply: read_nat; apply: a32.
have m2 : (maxel < 2)%N = false by lia.
have m4 : (maxel < 4)%N = false by lia.
have w4 : (w64 <= 4)%N = false by lia.
eexists; split.
  rewrite /load_vertices /term_text /= r32 //= [load_one _ _ _ _ _ _ _ _ _ (true, _) _]/load_one /=.
  rewrite !r64 //= m2 w4 m4 /= !r64 //= !r32 //=.
  by rewrite /load_one /= m2 w4 m4 /=; reflexivity.
by [].
Qed.
Print Assumptions C38_truncated_refuted.

(* A negative number is wrapped: flavor -(2^32 - 1) is accepted as flavor 1. *)
Theorem C38_negative_refuted :
  forall (w64 w32 maxel : nat), (9 < w64)%N -> (9 < w32)%N -> (9 < maxel)%N ->
  exists (file : seq (token int)) vl,
    [/\ nth (TWord int) file 10 = TInt int (- Posz w32.-1),
        load_vertices (F := [numFieldType of rat]) (fun z => z%:~R) id 0 maxel w64 w32 1 2 file = Ok vl &
        [seq vd_flavors x.1 | x <- vl] = [:: [:: 0%N; 1%N]]].
Proof.
move=> w64 w32 maxel h1 h2 h3.
have a64 k : (k < 9)%N -> (k < w64)%N = true by lia.
have a32 k : (k < 9)%N -> (k < w32)%N = true by lia.
have r64 (k : nat) r old : (k < 9)%N -> read_uint w64 (true, TInt int k :: r) old = (Some k, (true, r)).
  by move=> h; apply: read_nat; apply: a64.
have r32 (k : nat) r old : (k < 9)%N -> read_uint w32 (true, TInt int k :: r) old = (Some k, (true, r)).
  by move=> h; apply: read_nat; apply: a32.
have m2 : (maxel < 2)%N = false by lia.
have m4 : (maxel < 4)%N = false by lia.
have w4 : (w64 <= 4)%N = false by lia.
have e1 : (`|- Posz w32.-1| < w32)%N by rewrite abszN absz_nat; lia.
have e2 : (0 <= - Posz w32.-1) = false by lia.
have e3 : (w32 - `|- Posz w32.-1|)%N = 1%N by rewrite abszN absz_nat; lia.
exists (nums int [:: 1; 0; 2; 2]%N ++ TCplx (1 : int) :: nums int [:: 0; 0; 0; 0; 0]%N ++
        TInt int (- Posz w32.-1) :: nseq 4 (TCplx (1 : int))).
eexists; split; first by [].
  move: (- _) e1 e2 e3 => z e1 e2 e3.
  rewrite /load_vertices /= r32 //= /load_one /=.
  rewrite !r64 //= m2 w4 m4 /= !r64 //= !r32 //=.
  rewrite /read_uint /= e1 e2 e3 /=.
  by reflexivity.
by [].
Qed.
Print Assumptions C38_negative_refuted.

Example C38_case : exists ts : seq (term int),
  [/\ size ts = 2%N, all (wf_term 100 100 100) ts & all (in_range 2 2) ts /\ ~~ all (in_range 1 2) ts].
Proof. by exists [:: hub (1 : int) 0 0; hub (1 : int) 1 1]. Qed.

(* ------------------------------------------------------------------ C39 *)

(* push_back does not refuse a vertex at an occupied time. *)
Theorem C39_equal_times_refuted :
  exists (l : seq (vertex [eqType of nat])) x l',
    [/\ cont_push_back l x = Ok l', uniq [seq v_time v | v <- l] & ~~ uniq [seq v_time v | v <- l']].
Proof.
exists [:: (0, 0, 5, false, 1)%N], (1, 0, 5, false, 2)%N.
by exists [:: (0, 0, 5, false, 1)%N; (1, 0, 5, false, 2)%N].
Qed.
Print Assumptions C39_equal_times_refuted.

(* Otherwise it appends, and only that. *)
Theorem C39_push_back :
  forall (Tm : eqType) (l : seq (vertex Tm)) x, cont_push_back l x = Ok (rcons l x).
Proof. by move=> Tm l x; rewrite /cont_push_back if_same. Qed.
Print Assumptions C39_push_back.

(* The numbers of the vertices of the submatrix update stay distinct along every
   history. *)
Theorem C39_distinct_numbers :
  forall (F : numFieldType) (Tm : eqType) (ani : F) (G0 : sop Tm -> sop Tm -> F) (U : seq (vdef F))
         (x0 : sop Tm) (nf : nat) (tm0 : Tm) (junk : fmat F) (s : sub F Tm),
    sp_types_ok U ani nf -> reach ani G0 U x0 nf tm0 junk s -> uniq [seq v_uid v | v <- su_v s].
Proof. by move=> F Tm ani G0 U x0 nf tm0 junk s tok re; exact: (i_uid (reach_inv tok re)). Qed.
Print Assumptions C39_distinct_numbers.

(* Removal by position keeps exactly the elements at the other positions, in their
   order, whatever the order or multiplicity of the given positions. *)
Theorem C39_remove_positions :
  forall (A : Type) (x0 : A) (l : seq A) (rem : seq nat),
    remove_elements l rem = [seq nth x0 l i | i <- iota 0 (size l) & i \notin rem].
Proof.
move=> A x0 l rem; rewrite /remove_elements (remove_elements_fromE x0).
by apply: eq_map => i; rewrite subn0.
Qed.
Print Assumptions C39_remove_positions.

Theorem C39_count :
  forall (Tm : eqType) (l : seq (vertex Tm)), num_interacting l = size [seq v <- l | ~~ v_non v].
Proof. by move=> Tm l; rewrite num_interactingE size_filter. Qed.
Print Assumptions C39_count.

Example C39_case : remove_elements [:: 10; 11; 12; 13]%N [:: 2; 0; 7]%N = [:: 11; 13]%N.
Proof. by []. Qed.

(* ------------------------------------------------------------------ C40 *)

(* If every time survives being printed and read, the vertices come back (their numbers
   are assigned anew). *)
Theorem C40_round_trip_partial :
  forall (F : numFieldType) (Tm : eqType) (Dec : Type) (print : Tm -> Dec) (parse : Dec -> Tm)
         (U : seq (vdef F)) (vs : seq (vertex Tm)),
    all (fun v => v_type v < size U)%N vs -> all (fun v => ~~ v_non v) vs ->
    all (fun v => parse (print (v_time v)) == v_time v) vs ->
    exists vs', [/\ load_config parse U (dump print vs) = Ok vs', size vs' = size vs &
      forall i d, (i < size vs)%N -> same_vertex (nth d vs i) (nth d vs' i)].
Proof.
move=> F Tm Dec print parse U vs h1 h2 h3; eexists; split; first exact: load_dump.
  by rewrite size_map.
move=> i d hi; rewrite (nth_map d) // /same_vertex /= !eqxx /= eq_sym.
have m := mem_nth d hi; rewrite (eqP (allP h3 _ m)) eqxx /=.
by rewrite (negbTE (allP h2 _ m)).
Qed.
Print Assumptions C40_round_trip_partial.

(* The default precision of six digits is not enough: two different times are printed
   alike, so that no way of reading can give both back. *)
Theorem C40_precision_refuted :
  forall (F : numFieldType) (U : seq (vdef F)) (parse : N * BinNums.Z -> dbl), (0 < size U)%N ->
  exists t : dbl, (N.lt (fst t) (N.pow 2 (snd t))) /\
    forall vs', load_config (Tm := [eqType of dbl]) parse U
      (dump (Tm := [eqType of dbl]) print6 [:: (0%N, 0%N, t, false, 1%N)]) = Ok vs' ->
    [seq v_time v | v <- vs'] <> [:: t].
Proof.
move=> F U parse hU.
pose t1 : dbl := (5592405%num, 24%num); pose t2 : dbl := (5592406%num, 24%num).
have e : print6 t1 = print6 t2 by vm_compute.
have ne : t1 <> t2 by [].
have [h|h] := (parse (print6 t1)) =P t1.
  exists t2; split; first by vm_compute.
  move=> vs'; rewrite load_dump /=; last by rewrite hU.
  by move=> [<-] /= [h2]; apply: ne; rewrite -h e.
exists t1; split; first by vm_compute.
move=> vs'; rewrite load_dump /=; last by rewrite hU.
by move=> [<-] /= [h2].
Qed.
Print Assumptions C40_precision_refuted.

Example C40_case :
  let vs : seq (vertex [eqType of nat]) := [:: (0, 1, 5, false, 1)%N; (0, 0, 7, false, 4)%N] in
  load_config (F := [numFieldType of rat]) (fun n => n) [:: vdef0 _] (dump (fun n => n) vs)
  = Ok [:: (0, 1, 5, false, 0)%N; (0, 0, 7, false, 0)%N].
Proof. by []. Qed.

(* ------------------------------------------------------------------ C41 *)

(* Only different numbers below N are returned, as many as asked for. *)
Theorem C41_distinct :
  forall (N n : nat) (draws l rest : seq nat), all (fun d => d < N)%N draws ->
    pickup_a_few_numbers N n draws = Ok (l, rest) ->
    [/\ size l = n, uniq l & all (fun i => i < N)%N l].
Proof. exact: pickup_sound. Qed.
Print Assumptions C41_distinct.

(* For every length of the random sequence, every ordered selection of n different numbers
   is the result of the same number of random sequences, and of at least one of length n. *)
Theorem C41_uniform :
  forall (N n L : nat) (s t : seq nat), size s = n -> size t = n -> uniq s -> uniq t ->
    all (fun i => i < N)%N s -> all (fun i => i < N)%N t ->
    outcomes N n L s = outcomes N n L t /\ exists rest, pickup_a_few_numbers N n s = Ok (s, rest).
Proof.
move=> N n L s t es et us ut hs ht; split; first exact: outcomes_uniform.
by rewrite -es; apply: pickup_reach.
Qed.
Print Assumptions C41_uniform.

(* Asked for more numbers than there are, it never returns. *)
Theorem C41_too_many :
  forall (N n : nat) (draws : seq nat), all (fun d => d < N)%N draws -> (N < n)%N ->
    pickup_a_few_numbers N n draws = Diverge.
Proof. exact: pickup_too_many. Qed.
Print Assumptions C41_too_many.

(* The selection of vertices: different positions of vertices with the property, each
   selection by the same number of random sequences; nothing if there are too few. *)
Theorem C41_vertices :
  forall (V : Type) (v0 : V) (vs : seq V) (p : pred V) (n : nat),
    if (n <= count p vs)%N then
      (forall draws l rest, all (fun d => d < count p vs)%N draws ->
         pick_up_itime_vertices v0 vs p n draws = Ok (l, rest) -> selection v0 vs p n l) /\
      (forall L s t, selection v0 vs p n s -> selection v0 vs p n t ->
         outcomes_v v0 vs p n L s = outcomes_v v0 vs p n L t)
    else forall draws, pick_up_itime_vertices v0 vs p n draws = Ok ([::], draws).
Proof.
move=> V v0 vs p n; case: leqP => h; last by move=> draws; rewrite /pick_up_itime_vertices h.
by split=> [draws l rest hd|L s t]; [apply: pick_sound | apply: outcomes_v_uniform].
Qed.
Print Assumptions C41_vertices.

Example C41_case :
  [/\ pickup_a_few_numbers 3 2 [:: 2; 2; 0; 1]%N = Ok ([:: 2; 0]%N, [:: 1%N]),
      selection 0%N [:: 3; 4; 5; 6]%N odd 2 [:: 2; 0]%N &
      pick_up_itime_vertices 0%N [:: 3; 4; 5; 6]%N odd 2 [:: 1; 1; 0]%N = Ok ([:: 2; 0]%N, [::])].
Proof. by []. Qed.
