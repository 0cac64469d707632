(* Where plugins are. *)
From Coq Require Import String Ascii.
From Verif Require Import Base.
Open Scope string_scope.

(* dir/hppPlugins/name; dir may end with a slash *)
Definition plugin_file (dir name : string) : string :=
  match String.get (pred (String.length dir)) dir with
  | None => "hppPlugins/" ++ name
  | Some c => if Ascii.eqb c "/" then dir ++ "hppPlugins/" ++ name else dir ++ "/hppPlugins/" ++ name
  end.
(* the files where a plugin is looked for, in order *)
Definition candidates (hpp_dirs ld_dirs : list string) (name : string) : list string :=
  map (fun d => plugin_file d name) (hpp_dirs ++ ld_dirs).
(* [f] is the first regular file of [l] *)
Definition first_regular (regular : string -> bool) (l : list string) (f : string) : Prop :=
  exists a b, l = (a ++ f :: b)%list /\ regular f = true /\ forall x, In x a -> regular x = false.
(* a path from the root *)
Definition absolute (name : string) : Prop := exists r, name = "/" ++ r.
