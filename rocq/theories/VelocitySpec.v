(* Rigid body kinematics of a tree of joints. *)
From Verif Require Import Base.
From Coq Require Import Reals.
Open Scope R_scope.

Definition vec := (R * R * R)%type.
Definition vx (v : vec) := fst (fst v).
Definition vy (v : vec) := snd (fst v).
Definition vz (v : vec) := snd v.
Definition vzero : vec := (0, 0, 0).
Definition vadd (u v : vec) : vec := (vx u + vx v, vy u + vy v, vz u + vz v).
Definition vopp (u : vec) : vec := (- vx u, - vy u, - vz u).
Definition vsub (u v : vec) : vec := vadd u (vopp v).
Definition dot (u v : vec) : R := vx u * vx v + vy u * vy v + vz u * vz v.
Definition cross (u v : vec) : vec :=
  (vy u * vz v - vz u * vy v, vz u * vx v - vx u * vz v, vx u * vy v - vy u * vx v).
Definition norm (v : vec) : R := sqrt (dot v v).

(* State of motion of the tree: origin of the frame of each joint, linear
   velocity of this origin and angular velocity, relative to the parent body. *)
Record motion := { org : nat -> vec; lv : nat -> vec; av : nat -> vec }.
(* velocity, relative to the parent of joint i, of the point of body i at x *)
Definition joint_velocity (m : motion) (i : nat) (x : vec) : vec :=
  vadd (lv m i) (cross (av m i) (vsub x (org m i))).
(* velocity, relative to the world (joint 0), of the point of body i at x *)
Inductive world_velocity (parent : nat -> nat) (m : motion) (x : vec) : nat -> vec -> Prop :=
| world_root : world_velocity parent m x 0%nat vzero
| world_joint i v : i <> 0%nat -> world_velocity parent m x (parent i) v ->
    world_velocity parent m x i (vadd (joint_velocity m i x) v).
(* velocity, relative to body b, of the point of body a at x *)
Definition relative_velocity (parent : nat -> nat) (m : motion) (a b : nat) (x v : vec) : Prop :=
  exists va vb, world_velocity parent m x a va /\ world_velocity parent m x b vb /\ v = vsub va vb.
(* joints are numbered after their parents *)
Definition tree (parent : nat -> nat) : Prop := forall i, i <> 0%nat -> (parent i < i)%nat.
