(* Discretized path validation, sets of path validations, sets of
   configuration validations, joint bounds.
   Sources: src/path-validation/discretized.cc, src/path-validations.cc,
   src/config-validations.cc, src/joint-bound-validation.cc. *)
From Verif Require Import Base Ext ContValModel.

(* ---- discretized.cc ---- *)
Section Disc.
Variable ok : Q -> bool.   (* path->eval succeeds and every configuration validation accepts *)
Variable reverse : bool.
Variables ta tb stepSize : Q.
(* lines 66-74: lastValidTime (first parameter), T1, step *)
Definition d_start : Q := if reverse then tb else ta.
Definition d_T1 : Q := if reverse then ta else tb.
Definition d_step : Q := if reverse then (- stepSize)%Q else stepSize.
(* line 93 *)
Definition d_past (t : Q) : bool :=
  if reverse then negb (Qle_bool d_T1 t) else negb (Qle_bool t d_T1).
(* lines 77-97: the loop; lines 98-107: the result.  When a check fails t is
   unchanged, hence still in the range, and the loop stops. *)
Fixpoint disc (fuel : nat) (t last : Q) (finished : nat) : res vres :=
  if 2 <=? finished then Ok Valid
  else match fuel with
       | 0 => Fuel
       | S k =>
           if ok t then
             let t' := (t + d_step)%Q in
             if d_past t' then disc k d_T1 t (finished + 1) else disc k t' t finished
           else Ok (if reverse then Invalid (Fin last) (Fin tb) t else Invalid (Fin ta) (Fin last) t)
       end.
Definition discretized (fuel : nat) : res vres := disc fuel d_start d_start 0.
End Disc.

(* ---- path-validations.cc ---- *)
(* A path is given by the parameter range of the part of the original path.
   A member validation answers None (accepted) or the range of the valid part
   and the parameter in its report. *)
Definition prange := (Q * Q)%type.
Definition pmember := prange -> option (prange * Q).
(* lines 62-73 *)
Fixpoint pvs_loop (ms : list pmember) (temp : prange) (lastT : Q) (result : bool) : bool * prange * Q :=
  match ms with
  | [] => (result, temp, lastT)
  | m :: r =>
      match m temp with
      | None => pvs_loop r temp lastT result
      | Some (part, t) =>
          if Qlt_le_dec t lastT then pvs_loop r part t false else pvs_loop r temp lastT false
      end
  end.
(* lines 51-77.  [report]: the report pointer given by the caller is not
   null; line 75 dereferences it. *)
Definition path_validations (ms : list pmember) (path : prange) (report : bool) : res (bool * prange * Q) :=
  let r := pvs_loop ms path (snd path) true in
  if report then Ok r else UB.
(* lines 79-86: on a configuration *)
Definition path_validations_config {C} (ms : list (C -> bool)) (q : C) : bool :=
  forallb (fun m => m q) ms.

(* ---- config-validations.cc 40-49: rank of the failing member, if any ---- *)
Fixpoint config_validations {C} (ms : list (C -> bool)) (q : C) (i : nat) : option nat :=
  match ms with
  | [] => None
  | m :: r => if m q then config_validations r q (i + 1) else Some i
  end.

(* ---- joint-bound-validation.cc 44-82 ---- *)
Inductive jb_report := JointBound (i : nat) | ExtraBound (i : nat).
(* lines 48-63: i from the rank of the first element of the lists *)
Fixpoint joint_loop (lower upper : list ext) (q : list Q) (i : nat) : res (option jb_report) :=
  match lower, upper with
  | l :: lower', u :: upper' =>
      match q with
      | [] => UB
      | x :: q' => if eltb u (Fin x) || eltb (Fin x) l then Ok (Some (JointBound i))
                   else joint_loop lower' upper' q' (i + 1)
      end
  | _, _ => Ok None
  end.
(* lines 68-80 *)
Fixpoint extra_loop (lower upper : list ext) (q : list Q) (i : nat) : res (option jb_report) :=
  match lower, upper with
  | l :: lower', u :: upper' =>
      match q with
      | [] => UB
      | x :: q' => if eltb (Fin x) l || eltb u (Fin x) then Ok (Some (ExtraBound i))
                   else extra_loop lower' upper' q' (i + 1)
      end
  | _, _ => Ok None
  end.
(* [low]/[up]: position limits of the model (nq entries), [elow]/[eup]: bounds
   of the extra configuration space *)
Definition joint_bounds (low up elow eup : list ext) (q : list Q) : res (option jb_report) :=
  bind (joint_loop low up q 0) (fun r =>
    match r with
    | Some _ => Ok r
    | None => extra_loop elow eup (skipn (length low) q) 0
    end).
