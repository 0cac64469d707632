(* Bound of the relative velocity of two bodies used by continuous validation.
   Source: src/continuous-validation/solid-solid-collision.cc. *)
From Verif Require Import Base.
From Coq Require Import Reals.

(* ---- computeSequenceOfJoints (163-198) ---- *)
(* [parent]: model.parents.  The recursion carries fromA (reversed) and fromB (last
   pushed first).  Asserts are not modelled. *)
Fixpoint climb (parent : nat -> nat) (fuel ia ib : nat) (fromA fromB : list nat) : res (list nat) :=
  if ia =? ib then Ok (rev (ia :: fromA) ++ fromB)
  else match fuel with
       | 0 => Fuel
       | S k => if ib <? ia then climb parent k (parent ia) ib (ia :: fromA) fromB
                else climb parent k ia (parent ib) fromA (ib :: fromB)
       end.
Definition joint_sequence (parent : nat -> nat) (a b : nat) : res (list nat) := climb parent (a + b) a b [] [].

(* ---- computeCoefficients (200-231) ---- *)
(* bounds of each joint: linear and angular velocity per unit of velocity in the
   joint, maximal distance to the parent joint *)
Record jbound := { lin : R; ang : R; dpar : R }.
(* [radius]: radius of the body of joint_a.  UB: abort (). *)
Fixpoint coefficients (parent : nat -> nat) (jb : nat -> jbound) (joints : list nat) (cumul : R) : res (list (nat * R)) :=
  match joints with
  | i :: ((j :: _) as r) =>
      if parent i =? j then
        bind (coefficients parent jb r (cumul + dpar (jb i))) (fun l => Ok ((i, lin (jb i) + cumul * ang (jb i))%R :: l))
      else if parent j =? i then
        bind (coefficients parent jb r (cumul + dpar (jb j))) (fun l => Ok ((j, lin (jb j) + cumul * ang (jb j))%R :: l))
      else UB
  | _ => Ok []
  end.
(* ---- setCoefficients (234-244) and computeMaximalVelocity (76-99) ---- *)
(* [nv i]: norm of the velocity bound of joint i.  Both directions start from
   the radius of the body of joint_a. *)
Definition weighted (nv : nat -> R) (l : list (nat * R)) : R :=
  fold_left (fun s c => (s + snd c * nv (fst c))%R) l 0%R.
Definition max_velocity (parent : nat -> nat) (jb : nat -> jbound) (radius : R) (nv : nat -> R)
    (a : nat) (b : option nat) : res R :=
  bind (joint_sequence parent a (match b with Some i => i | None => 0 end)) (fun joints =>
  bind (coefficients parent jb joints radius) (fun cs =>
  match b with
  | None => Ok (weighted nv cs)
  | Some _ =>
      bind (coefficients parent jb (rev joints) radius) (fun cr =>
      Ok (if Rlt_dec (weighted nv cr) (weighted nv cs) then weighted nv cr else weighted nv cs))
  end)).
