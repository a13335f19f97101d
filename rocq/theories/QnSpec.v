(* Specification of quantum numbers: by how much the parts of a vertex change the number of
   particles of every flavor in every group of sites. *)
From mathcomp Require Import all_ssreflect ssralg ssrnum ssrint.
From Verif Require Import SubModel SubSpec.

Set Implicit Arguments.
Unset Strict Implicit.
Unset Printing Implicit Defensive.

Local Open Scope ring_scope.

Section QnSpec.
Variable F : numFieldType.

(* creation and annihilation site of part r *)
Definition sp_cre_site (d : vdef F) (r : nat) : nat := nth 0%N (vd_sites d) (2 * r).
Definition sp_ann_site (d : vdef F) (r : nat) : nat := nth 0%N (vd_sites d) (2 * r).+1.

(* particles of flavor f created in group g minus those annihilated there; [grp f s] is the
   group of site s *)
Definition sp_net (grp : nat -> nat -> nat) (d : vdef F) (f g : nat) : int :=
  let parts := [seq r <- iota 0 (vd_rank d) | nth 0%N (vd_flavors d) r == f] in
  (count (fun r => grp f (sp_cre_site d r) == g) parts)%:Z -
  (count (fun r => grp f (sp_ann_site d r) == g) parts)%:Z.

(* a vertex type whose parts have a flavor below nf and two sites below ns *)
Definition sp_shape_ok (nf ns : nat) (d : vdef F) : bool :=
  [&& (vd_rank d <= size (vd_flavors d))%N, (2 * vd_rank d <= size (vd_sites d))%N,
      all (fun fl => fl < nf)%N (vd_flavors d) & all (fun s => s < ns)%N (vd_sites d)].

(* the total over the interacting vertices of a configuration *)
Definition sp_total (Tm : eqType) (U : seq (vdef F)) (grp : nat -> nat -> nat) (vs : seq (vertex Tm)) (f g : nat) : int :=
  \sum_(v <- vs | ~~ v_non v) sp_net grp (sp_def U v) f g.

(* the bare Green function vanishes between groups *)
Definition separates (Tm : eqType) (nf ns : nat) (grp : nat -> nat -> nat) (G0 : sop Tm -> sop Tm -> F) : Prop :=
  forall f (s1 s2 : nat) t1 t2 k1 k2, (f < nf)%N -> (s1 < ns)%N -> (s2 < ns)%N -> grp f s1 <> grp f s2 -> G0 (f, s1, t1, k1) (f, s2, t2, k2) = 0.

(* the bare Green function vanishes where the table says so *)
Definition zero_where_not (Tm : eqType) (nf ns : nat) (nz : nat -> nat -> nat -> bool) (G0 : sop Tm -> sop Tm -> F) : Prop :=
  forall f (s1 s2 : nat) t1 t2 k1 k2, (f < nf)%N -> (s1 < ns)%N -> (s2 < ns)%N -> ~~ nz f s1 s2 ->
    G0 (f, s1, t1, k1) (f, s2, t2, k2) = 0.

(* parts that take a particle from one group to another have alpha = 0 *)
Definition no_alpha_between (grp : nat -> nat -> nat) (d : vdef F) : Prop :=
  forall a r, (r < vd_rank d)%N ->
    grp (nth 0%N (vd_flavors d) r) (sp_cre_site d r) <> grp (nth 0%N (vd_flavors d) r) (sp_ann_site d r) ->
    vd_alpha d a r = 0.

End QnSpec.
