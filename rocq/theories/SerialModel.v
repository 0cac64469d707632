(* Saving and loading paths with boost archives: Path::serialize
   (src/path.cc 281-297) and the serialize functions of the classes derived
   from Path (src/straight-path.cc 167-177, src/path-vector.cc 215-222,
   src/extracted-path.cc 37-45, src/dubins-path.cc 306-326,
   src/path/spline.cc 473-486, src/steering-method/constant-curvature.cc
   469-487).

   Simplifications.
   - A path is the class of the object, the members of Path, the values of the
     members of the derived class (doubles, vectors, integers, joints, devices:
     one abstract type), and the paths it points to.  What a path computes is a
     function of these.
   - Constraint sets are values: their own serialization is not modelled.
   - An archive is a list of tokens.  The weak pointers of the objects to
     themselves, which boost restores, are not in the model. *)
From Verif Require Import Base QcTac.
Open Scope nat_scope.

Section Serial.
Variable V : Type.                                  (* values of members *)
Variable K : Type.                                  (* constraint sets *)

Inductive cls :=
| CStraight          (* space_, initial_, end_ *)
| CVector            (* paths_ *)
| CExtracted         (* original_, reversed_ *)
| CCurvature         (* robot_, initial_, end_, curveLength_, curvature_, xyId_, rzId_, dxyId_, drzId_, forward_, wheels_ *)
| CDubins            (* base PathVector; device_ ... qi_, dubins-path.cc 311-324 *)
| CSpline            (* parameterSize_, robot_, base_, parameters_, velocity_, powersOfT_ *)
| CInterpolated | CHermite | CKinodynamic | CKinodynamicOriented | CSubchain.

(* BOOST_CLASS_EXPORT: straight-path.cc 183, path-vector.cc 228,
   extracted-path.cc 51, constant-curvature.cc 507, dubins-path.cc 332,
   spline.cc 510-513.  An object of another class cannot be saved through a
   pointer to its base. *)
Definition registered (c : cls) : bool :=
  match c with
  | CStraight | CVector | CExtracted | CCurvature | CDubins | CSpline => true
  | _ => false
  end.
(* number of members which the serialize function of the class reads, besides
   those of Path and paths; the classes which are not registered have no such
   function *)
Definition arity (c : cls) : nat :=
  match c with
  | CStraight => 3 | CVector => 0 | CExtracted => 1 | CCurvature => 11 | CDubins => 13 | CSpline => 6
  | _ => 0
  end.

(* members of Path, path.hh 270, 338-359 *)
Record phdr := mkPh {
  h_time : Qc * Qc; h_param : Qc * Qc;
  h_size : nat; h_dsize : nat;
  h_cs : option K;
  h_tp : option (Qc -> Qc) }.
(* path.hh 283-290: timeRange (timeRange) *)
Definition h_set_range (h : phdr) (I : Qc * Qc) : phdr :=
  mkPh I (match h_tp h with Some f => (f (fst I), f (snd I)) | None => I end)
       (h_size h) (h_dsize h) (h_cs h) (h_tp h).
(* path.hh 225-229 *)
Definition h_set_tp (h : phdr) (f : option (Qc -> Qc)) (I : Qc * Qc) : phdr :=
  h_set_range (mkPh (h_time h) (h_param h) (h_size h) (h_dsize h) (h_cs h) f) I.
(* path.cc 88-107 *)
Definition h_create (I : Qc * Qc) (n m : nat) (c : option K) : phdr := mkPh I I n m c None.
(* path.cc 121-131 *)
Definition h_with_constraints (h : phdr) (c : option K) : phdr :=
  mkPh (h_time h) (h_param h) (h_size h) (h_dsize h) c (h_tp h).

Inductive obj := Obj (c : cls) (h : phdr) (members : list V) (subs : list obj).

Inductive tok :=
| TClass (c : cls) | TRange (I : Qc * Qc) | TNat (n : nat) | TCons (c : option K) | TVal (v : V).

(* path.cc 282-297, when saving *)
Definition save_header (h : phdr) : res (list tok) :=
  match h_tp h with
  | Some _ => Throw
  | None => Ok [TRange (h_time h); TNat (h_size h); TNat (h_dsize h); TCons (h_cs h)]
  end.
(* a pointer to a path: its class, the members of Path, the paths it points to,
   the members of the class.  The count of the paths of a vector is written
   before them. *)
Fixpoint save (o : obj) : res (list tok) :=
  match o with
  | Obj c h ms subs =>
      if registered c then
        bind (save_header h) (fun th =>
        bind ((fix go (l : list obj) : res (list tok) :=
                 match l with
                 | [] => Ok []
                 | x :: r => bind (save x) (fun a => bind (go r) (fun b => Ok (a ++ b)))
                 end) subs) (fun ts =>
        Ok (TClass c :: th ++ TNat (length subs) :: ts ++ map TVal ms)))
      else Throw
  end.

(* when loading: lines 284-295; paramRange_ is recomputed from timeRange_, the
   path has no time parameterization *)
Definition load_header (ts : list tok) : option (phdr * list tok) :=
  match ts with
  | TRange iv :: TNat n :: TNat m :: TCons c :: r =>
      Some (h_set_range (mkPh iv (0%Qc, 0%Qc) n m c None) iv, r)
  | _ => None
  end.
Fixpoint load_values (n : nat) (ts : list tok) : option (list V * list tok) :=
  match n with
  | 0 => Some ([], ts)
  | S k => match ts with
           | TVal v :: r => match load_values k r with
                            | Some (vs, r') => Some (v :: vs, r')
                            | None => None
                            end
           | _ => None
           end
  end.
(* [fuel]: depth of the nesting of the paths *)
Fixpoint load (fuel : nat) (ts : list tok) : option (obj * list tok) :=
  match fuel with
  | 0 => None
  | S k =>
      match ts with
      | TClass c :: r =>
          match load_header r with
          | Some (h, TNat n :: r1) =>
              match (fix go (n : nat) (ts : list tok) : option (list obj * list tok) :=
                       match n with
                       | 0 => Some ([], ts)
                       | S m => match load k ts with
                                | Some (x, r) => match go m r with
                                                 | Some (l, r') => Some (x :: l, r')
                                                 | None => None
                                                 end
                                | None => None
                                end
                       end) n r1 with
              | Some (subs, r2) =>
                  match load_values (arity c) r2 with
                  | Some (ms, r3) => Some (Obj c h ms subs, r3)
                  | None => None
                  end
              | None => None
              end
          | _ => None
          end
      | _ => None
      end
  end.
Fixpoint depth (o : obj) : nat :=
  match o with Obj _ _ _ subs => S (list_max (map depth subs)) end.
End Serial.
Arguments mkPh {K}. Arguments h_time {K}. Arguments h_param {K}. Arguments h_size {K}. Arguments h_dsize {K}.
Arguments h_cs {K}. Arguments h_tp {K}. Arguments Obj {V K}.
