(* Plugins: src/plugin.cc, include/hpp/core/plugin.hh.

   Simplifications.
   - The directories listed by the environment variables are given as lists
     (pinocchio::extractPathFromEnvVar splits them); files are those for which
     is_regular_file holds.
   - dlopen and dlsym are functions of the name and of the library: what they
     return and whether dlerror reports an error.
   - The problem solver is a value that plugins transform. *)
From Coq Require Import String Ascii.
From Verif Require Import Base.
Open Scope string_scope.

(* boost::filesystem on POSIX *)
Definition is_absolute (p : string) : bool :=
  match p with String c _ => Ascii.eqb c "/" | EmptyString => false end.
Fixpoint ends_with_slash (p : string) : bool :=
  match p with
  | EmptyString => false
  | String c EmptyString => Ascii.eqb c "/"
  | String _ r => ends_with_slash r
  end.
(* p /= r, for a relative r *)
Definition join (p r : string) : string :=
  match p with
  | EmptyString => r
  | _ => if ends_with_slash p then p ++ r else p ++ "/" ++ r
  end.

Section Plugin.
Variable regular : string -> bool.
(* lines 46-51 and 55-60 *)
Fixpoint search (dirs : list string) (name : string) : option string :=
  match dirs with
  | [] => None
  | d :: r => let lib := join (join d "hppPlugins") name in
              if regular lib then Some lib else search r name
  end.
(* lines 42-65: findPluginLibrary *)
Definition find_plugin (hpp_dirs ld_dirs : list string) (name : string) : res string :=
  if is_absolute name then Ok name
  else match search hpp_dirs name with
       | Some f => Ok f
       | None => match search ld_dirs name with
                 | Some f => Ok f
                 | None => Throw
                 end
       end.

Variables Lib PS : Type.
(* plugin.hh 47-51, 65: a plugin, whether it has been initialized *)
Record plugin := mkPlugin { pl_impl : PS -> bool * PS; pl_done : bool }.
Definition initialize (p : plugin) (ps : PS) : bool * plugin * PS :=
  if pl_done p then (true, p, ps)
  else let r := pl_impl p ps in (fst r, mkPlugin (pl_impl p) (fst r), snd r).
(* createProblemSolverPlugin, plugin.hh 74-79: a new object each time *)
Variable dlopen : string -> option Lib * bool.      (* the library, dlerror() != NULL *)
Variable dlsym : Lib -> option (PS -> bool * PS) * bool.
(* lines 67-106: loadPlugin *)
Definition load_plugin (lib : string) (ps : PS) : res (bool * PS) :=
  match dlopen lib with
  | (_, true) => Throw
  | (None, false) => Ok (false, ps)
  | (Some l, false) =>
      match dlsym l with
      | (_, true) => Throw
      | (None, false) => Throw
      | (Some f, false) => let '(b, _, ps') := initialize (mkPlugin f false) ps in Ok (b, ps')
      end
  end.
End Plugin.
Arguments mkPlugin {PS}. Arguments initialize {PS}. Arguments pl_impl {PS}. Arguments pl_done {PS}.
