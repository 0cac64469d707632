(* Derivatives and velocity bounds of kinodynamic paths: KinodynamicPath
   (include/hpp/core/kinodynamic-path.hh) derives from StraightPath and does not
   redefine impl_derivative and impl_velocityBound.  Simplifications as in
   KinoModel.v: the other joints are in vector spaces. *)
From Coq Require Import Reals ZArith List.
From Verif Require Import Base XReal KinoModel.
Import ListNotations.
Open Scope R_scope.

(* coordinates of a velocity: translations with their velocity and
   acceleration coordinates, others *)
Record kvel := mkV { vtrans : list st; vrest : list R }.
Definition st_map (f : R -> R) (s : st) : st := mkSt (f (x_ s)) (f (v_ s)) (f (ac_ s)).
Definition vmap (f : R -> R) (v : kvel) : kvel := mkV (map (st_map f) (vtrans v)) (map f (vrest v)).
(* end_ - initial_ *)
Definition difference (p : kpath) : kvel :=
  mkV (map (fun x => mkSt (x_ (se x) - x_ (si x)) (v_ (se x) - v_ (si x)) (ac_ (se x) - ac_ (si x))) (axes p))
      (map (fun c => snd c - fst c) (others p)).

(* straight-path.cc 112-130 impl_derivative *)
Definition kderivative (p : kpath) (t : R) (order : Z) : res kvel :=
  if (1 <? order)%Z then Ok (vmap (fun _ => 0) (difference p))
  else if (order =? 1)%Z then
    if reqb 0 (klen p) then Ok (vmap (fun _ => 0) (difference p))
    else Ok (vmap (fun d => d / klen p) (difference p))
  else Throw.
(* straight-path.cc 132-140 impl_velocityBound *)
Definition kvelocity_bound (p : kpath) (ta tb : R) : kvel :=
  if reqb 0 (klen p) then vmap (fun _ => 0) (difference p)
  else vmap (fun d => Rabs d / klen p) (difference p).
