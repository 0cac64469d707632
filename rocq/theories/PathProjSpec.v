(* Specification vocabulary for the path projectors. *)
From Verif Require Import Base QcTac PathProjModel.
Open Scope Qc_scope.

(* the paths of a path vector, in order *)
Fixpoint leaves {X} (t : tree X) : list X :=
  match t with L x => [x] | V l => flat_map leaves l end.

Section Spec.
Variables C P : Type.
Variable init fin : P -> C.

(* configurations through which a result goes *)
Definition waypoints (o : out C P) : list C :=
  match o with
  | Raw p | Con p _ => [init p; fin p]
  | Interp x l _ => snd x :: map snd l
  | Start p => [init p]
  end.
(* consecutive configurations are at most [d] apart *)
Fixpoint spaced (dist : C -> C -> Qc) (d : Qc) (l : list C) : Prop :=
  match l with
  | a :: ((b :: _) as r) => dist a b <= d /\ spaced dist d r
  | _ => True
  end.
(* what is asked of the steering method *)
Definition steers (steer : C -> C -> option P) : Prop :=
  forall a b p, steer a b = Some p -> init p = a /\ fin p = b.
(* what is asked of the constraints: a successful application is satisfied *)
Definition honest_apply (k : cset C) : Prop :=
  forall r q q', c_apply k r q = (true, q') -> c_sat k r q' = true.
End Spec.
Arguments waypoints {C P}. Arguments spaced {C}. Arguments steers {C P}. Arguments honest_apply {C}.
