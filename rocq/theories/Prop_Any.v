(* Property theorems: C95 (saving an object of a type known at run time). *)
From mathcomp Require Import all_ssreflect zify.
From Verif Require Import Outcome AnyModel.

Set Implicit Arguments.
Unset Strict Implicit.
Unset Printing Implicit Defensive.

(* ------------------------------------------------------------------ C95 *)

(* A real or complex number, a real or complex array of 1 to 8 indices or one of the two Green
   functions is written exactly once, to the completed path, after what the archive held
   before; any other object is refused and the archive is unchanged. *)
Theorem C95_save :
  forall (Path V : Type) (complete_path : Path -> Path) (ar : archive Path V) (path : Path) (ty : any_type) (v : V),
    let res := any_save complete_path ar path (ty, v) in
    match ty with
    | TDouble | TComplex | TGomega | TGtau => res = (rcons ar (complete_path path, v), Ok tt)
    | TArray _ n => (0 < n < 9 -> res = (rcons ar (complete_path path, v), Ok tt)) /\ (~~ (0 < n < 9) -> res = (ar, Throw))
    | TOther _ => res = (ar, Throw)
    end.
Proof.
move=> Path V cp ar path [||c n|||n] v //.
by case: c; do 9! (case: n => [//|n]); split=> //; rewrite ltnS ltn0 andbF.
Qed.
Print Assumptions C95_save.

(* Objects of different types saved one after the other: the archive holds the supported ones
   in order, each once. *)
Definition supported (ty : any_type) : bool :=
  match ty with TArray _ n => 0 < n < 9 | TOther _ => false | _ => true end.
Theorem C95_all :
  forall (Path V : Type) (complete_path : Path -> Path) (l : seq (Path * any V)),
    foldl (fun ar x => (any_save complete_path ar x.1 x.2).1) [::] l =
    [seq (complete_path x.1, x.2.2) | x <- l & supported x.2.1].
Proof.
move=> Path V cp l; pose f ar (x : Path * any V) := (any_save cp ar x.1 x.2).1.
have fE ar x : f ar x = if supported x.2.1 then rcons ar (cp x.1, x.2.2) else ar.
  case: x => p [ty v]; have := C95_save cp ar p ty v; rewrite /f [(p, _).1]/= [(p, _).2]/=; case: (any_save _ _ _ _) => r o.
  case: ty => [||c n|||n] /=; try by case=> ->.
  by case=> h1 h2; case: ifP => h; [case: (h1 h) => -> | move: h2; rewrite h => /(_ isT) [->]].
rewrite -[LHS]/(foldl f [::] l) -[RHS]cat0s; elim: l [::] => [|x l ih] ar; first by rewrite cats0.
rewrite -[LHS]/(foldl f (f ar x) l) ih fE /=; case: ifP => _ //=; by rewrite cat_rcons.
Qed.
Print Assumptions C95_all.

(* two supported objects and an array of nine indices *)
Example C95_case :
  foldl (fun ar x => (any_save (addn 100) ar x.1 x.2).1) [::]
    [:: (1, (TDouble, 7)); (2, (TArray true 9, 8)); (3, (TArray false 8, 9))] = [:: (101, 7); (103, 9)].
Proof. by []. Qed.
