(* Model of hdf5/boost_any.hpp: saving an object whose type is known at run time only.
   Simplifications: an archive is the list of what was written to it; complete_path of the
   archive is a parameter; the arguments size, chunk and offset, which are not passed on, are
   left out. *)
From mathcomp Require Import all_ssreflect.
From Verif Require Import Outcome.

Set Implicit Arguments.
Unset Strict Implicit.
Unset Printing Implicit Defensive.

(* hdf5/boost_any.hpp:12-20, 52-86 — the types the function asks for; any other type has a number. *)
Inductive any_type :=
  | TDouble | TComplex | TArray (cplx : bool) (rank : nat) | TGomega | TGtau | TOther (n : nat).
(* hdf5/boost_any.hpp:33, 79, 83 — comparison of type_info. *)
Definition type_is (a b : any_type) : bool :=
  match a, b with
  | TDouble, TDouble | TComplex, TComplex | TGomega, TGomega | TGtau, TGtau => true
  | TArray c n, TArray c' n' => (c == c') && (n == n')
  | TOther n, TOther n' => n == n'
  | _, _ => false
  end.

Section Save.
Variables (Path V : Type) (complete_path : Path -> Path).
(* hdf5/boost_any.hpp:44-51 — the archive and the object. *)
Definition archive : Type := seq (Path * V).
(* hdf5/boost_any.hpp:44-51 — boost::any: the type and the value. *)
Definition any : Type := (any_type * V)%type.

(* hdf5/boost_any.hpp:22-40 — save_if_match<T>::perform; cnt is the counter of the caller. *)
Definition save_if_match (path : Path) (value : any) (st : archive * nat) (T : any_type) : archive * nat :=
  if type_is value.1 T then (rcons st.1 (complete_path path, value.2), st.2.+1) else st.
(* hdf5/boost_any.hpp:56-86 — the types in the order in which they are asked for. *)
Definition asked : seq any_type :=
  [:: TDouble; TComplex] ++ [seq TArray false n | n <- iota 1 8] ++ [seq TArray true n | n <- iota 1 8]
  ++ [:: TGomega; TGtau].
(* hdf5/boost_any.hpp:43-91 — save: the archive afterwards and the outcome. *)
Definition any_save (ar : archive) (path : Path) (value : any) : archive * outcome unit :=
  let st := foldl (save_if_match path value) (ar, 0) asked in
  (st.1, if st.2 == 0 then Throw else Ok tt).
(* hdf5/boost_any.hpp:93-101 — load. *)
Definition any_load (ar : archive) (path : Path) (value : any) : any * outcome unit := (value, Throw).
End Save.
