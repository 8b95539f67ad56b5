(* include/mqt-core/qasm3/NestedEnvironment.hpp: a vector of maps, here a list with the innermost map first. *)
From Coq Require Import Bool List String.
Import ListNotations.

Definition scope (T : Type) : Type := list (string * T).
Definition env (T : Type) : Type := list (scope T).
(* 23 *)
Definition env_new {T} : env T := [[]].
(* 25 *)
Definition env_push {T} (e : env T) : env T := [] :: e.
(* 27; None: pop_back of an empty vector *)
Definition env_pop {T} (e : env T) : option (env T) := match e with _ :: e' => Some e' | [] => None end.
Fixpoint map_find {T} (k : string) (m : scope T) : option T :=
  match m with (k', v) :: m' => if String.eqb k' k then Some v else map_find k m' | [] => None end.
(* 29-37 *)
Fixpoint env_find {T} (k : string) (e : env T) : option T :=
  match e with m :: e' => match map_find k m with Some v => Some v | None => env_find k e' end | [] => None end.
(* 39: std::map::emplace leaves an existing entry as it is; None: back() of an empty vector *)
Definition env_emplace {T} (k : string) (v : T) (e : env T) : option (env T) :=
  match e with
  | m :: e' => Some ((match map_find k m with Some _ => m | None => m ++ [(k, v)] end) :: e')
  | [] => None
  end.
