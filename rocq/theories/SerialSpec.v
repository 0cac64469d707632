(* Which paths can be saved, and how the members of Path are set. *)
From Coq Require Import String.
From Verif Require Import Base QcTac SerialModel.
Open Scope nat_scope.

Section Spec.
Context {V K : Type}.
(* the states of the members of Path which the public operations give *)
Inductive built : phdr K -> Prop :=
| built_create I n m c : built (h_create K I n m c)
| built_range h I : built h -> built (h_set_range K h I)
| built_tp h f I : built h -> built (h_set_tp K h f I)
| built_copy h c : built h -> built (h_with_constraints K h c).

(* the members of the classes, besides paths: straight-path.hh 210-212,
   extracted-path.hh 195, constant-curvature.hh 180-188, dubins-path.hh
   172-182, spline.hh 312-327, interpolated-path.hh 225-226, hermite.hh
   155-157 with those of Spline, kinodynamic-path.hh 206-208 and kinodynamic-oriented-path.hh 189
   with those of StraightPath, subchain-path.hh 153-154 *)
Definition member_names (c : cls) : list string :=
  match c with
  | CStraight => ["space_"; "initial_"; "end_"]
  | CVector => []
  | CExtracted => ["reversed_"]
  | CCurvature => ["robot_"; "initial_"; "end_"; "curveLength_"; "curvature_"; "xyId_"; "rzId_"; "dxyId_"; "drzId_";
                   "forward_"; "wheels_"]
  | CDubins => ["device_"; "initial_"; "end_"; "xyId_"; "rzId_"; "dxyId_"; "drzId_"; "wheels_"; "typeId_"; "lengths_";
                "extraLength_"; "rho_"; "qi_"]
  | CSpline => ["parameterSize_"; "robot_"; "base_"; "parameters_"; "velocity_"; "powersOfT_"]
  | CInterpolated => ["device_"; "configs_"]
  | CHermite => ["parameterSize_"; "robot_"; "base_"; "parameters_"; "velocity_"; "powersOfT_"; "device_"; "init_"; "end_";
                "hermiteLength_"]
  | CKinodynamic => ["space_"; "initial_"; "end_"; "device_"; "a1_"; "t0_"; "t1_"; "tv_"; "t2_"; "vLim_"]
  | CKinodynamicOriented => ["space_"; "initial_"; "end_"; "device_"; "a1_"; "t0_"; "t1_"; "tv_"; "t2_"; "vLim_";
                             "ignoreZValue_"]
  | CSubchain => ["configView_"; "velView_"; "q_"]
  end%string.

(* an object of a path class, with the members of its class *)
Inductive wf : obj V K -> Prop :=
| wf_obj c h ms subs : built h -> length ms = length (member_names c) -> (forall x, In x subs -> wf x) -> wf (Obj c h ms subs).

(* the path and those it is made of are of a class which can be saved, and have
   no time parameterization *)
Inductive saveable : obj V K -> Prop :=
| sv_obj c h ms subs :
    In c [CStraight; CVector; CExtracted; CCurvature; CDubins; CSpline] -> h_tp h = None ->
    (forall x, In x subs -> saveable x) -> saveable (Obj c h ms subs).
End Spec.
