(* The named containers of hpp::core: a std::map from keys to elements.

   Simplifications: std::map is represented by the list of its elements in
   iteration order; std::map::insert, find and erase follow their standard
   specification (ordered by operator<, an existing element is not replaced
   by insert). print is left out. *)
From Verif Require Import Base.

Section Container.
Context {K V : Type}.
Variable ltb : K -> K -> bool. (* operator< on keys *)

Definition cmap := list (K * V).

(* std::map::find: the element with an equivalent key *)
Fixpoint mfind (k : K) (m : cmap) : option V :=
  match m with
  | [] => None
  | (k', v) :: m' =>
    if ltb k k' then None else if ltb k' k then mfind k m' else Some v
  end.
(* std::map::insert: the map, and whether the element was inserted *)
Fixpoint minsert (k : K) (v : V) (m : cmap) : cmap * bool :=
  match m with
  | [] => ([(k, v)], true)
  | (k', v') :: m' =>
    if ltb k k' then ((k, v) :: m, true)
    else if ltb k' k then
      match minsert k v m' with (m'', b) => ((k', v') :: m'', b) end
    else (m, false)
  end.
(* assignment through the iterator returned by insert *)
Fixpoint massign (k : K) (v : V) (m : cmap) : cmap :=
  match m with
  | [] => []
  | (k', v') :: m' =>
    if ltb k k' then m
    else if ltb k' k then (k', v') :: massign k v m' else (k', v) :: m'
  end.
(* std::map::erase(key) *)
Fixpoint merase (k : K) (m : cmap) : cmap :=
  match m with
  | [] => []
  | (k', v') :: m' =>
    if ltb k k' then m
    else if ltb k' k then (k', v') :: merase k m' else m'
  end.

(* Container::add, include/hpp/core/container.hh:91-94 *)
Definition c_add (m : cmap) (k : K) (v : V) : cmap :=
  match minsert k v m with (m', b) => if b then m' else massign k v m' end.
(* Container::erase, container.hh:87 *)
Definition c_erase (m : cmap) (k : K) : cmap := merase k m.
(* Container::clear, container.hh:89 *)
Definition c_clear (m : cmap) : cmap := [].
(* Container::has, container.hh:96 *)
Definition c_has (m : cmap) (k : K) : bool :=
  match mfind k m with None => false | Some _ => true end.
(* Container::get(name), container.hh:99-107 *)
Definition c_get (m : cmap) (k : K) : res V :=
  match mfind k m with None => Throw | Some v => Ok v end.
(* Container::get(name, defaultValue), container.hh:110-115 *)
Definition c_get_default (m : cmap) (k : K) (d : V) : V :=
  match mfind k m with None => d | Some v => v end.
(* Container::getAllAs, container.hh:119-125 *)
Definition c_all (m : cmap) : list V := map snd m.
(* Container::getKeys, container.hh:127-133 *)
Definition c_keys (m : cmap) : list K := map fst m.

(* the calls which change a container *)
Inductive cop := CAdd (k : K) (v : V) | CErase (k : K) | CClear.
Definition c_step (m : cmap) (o : cop) : cmap :=
  match o with
  | CAdd k v => c_add m k v
  | CErase k => c_erase m k
  | CClear => c_clear m
  end.
Definition c_run (l : list cop) : cmap := fold_left c_step l [].
End Container.
Arguments cop : clear implicits.
