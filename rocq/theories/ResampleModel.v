(* Paths sampled into interpolated paths (src/interpolated-path.cc 66-88,
   100-110), and the interpolated steering method
   (include/hpp/core/steering-method/interpolated-steering-method.hh).
   Same simplifications as PathModel.v. *)
From Verif Require Import Base QcTac PathModel.
Open Scope Qc_scope.

Section ResampleModel.
Variable conf : Type.
Variable interp : conf -> conf -> Qc -> conf.
Notation path := (path conf).

Definition nq (n : nat) : Qc := Q2Qc (inject_Z (Z.of_nat n)).

(* src/interpolated-path.cc 80-87: the loop; [k] is iS, [todo] the number of
   iterations left *)
Fixpoint sample_loop (p : path) (t0 dl : Qc) (k todo : nat) (ks : list (Qc * conf)) : res (list (Qc * conf)) :=
  match todo with
  | O => Ok ks
  | S m =>
      let u := t0 + dl * nq (k + 1) in
      bind (config_or_throw (eval conf interp p u)) (fun q => sample_loop p t0 dl (S k) m (kinsert u q ks))
  end.
(* initial () and end () return a configuration even if the projection failed
   (extracted-path.hh 120-131); that case is left out, as undefined *)
Definition end_or_ub (r : res (option conf)) : res conf :=
  bind r (fun o => match o with Some q => Ok q | None => UB end).
(* src/interpolated-path.cc 66-88: constructor; 100-110, 112-116: create, init *)
Definition resample (p : path) (n : nat) : res path :=
  let I := timeRange p in
  bind (end_or_ub (initial conf interp p)) (fun q0 =>
  bind (end_or_ub (end_ conf interp p)) (fun q1 =>
  let dl := plength p / nq (n + 1) in
  bind (sample_loop p (fst I) dl 0 n (kinsert (snd I) q1 (kinsert (fst I) q0 []))) (fun ks =>
  let h := mk_hdr I (cs (hd_of p)) in
  match ks, klast ks with
  | k0 :: _, Some k1 => if check_ends h (snd k0) (snd k1) then Ok (Interp h ks) else Throw
  | _, _ => UB
  end))).

(* interpolated-steering-method.hh 75-82: impl_compute, with
   interpolated-path.hh 105-115: create *)
Definition interpolated_compute (dist : conf -> conf -> Qc) (c : option (constr conf)) (q1 q2 : conf) : res path :=
  let len := dist q1 q2 in interp_create q1 q2 (0, len) c.
(* include/hpp/core/steering-method.hh 55-65: operator(); None is the null
   pointer. The exception thrown by checkPath is a projection_error. *)
Definition interpolated_steer (dist : conf -> conf -> Qc) (c : option (constr conf)) (q1 q2 : conf) : res (option path) :=
  match interpolated_compute dist c q1 q2 with
  | Ok p => Ok (Some p)
  | Throw => Ok None
  | UB => UB
  | Fuel => Fuel
  end.
End ResampleModel.

Arguments resample {conf} interp p n.
Arguments interpolated_steer {conf} dist c q1 q2.
Arguments interpolated_compute {conf} dist c q1 q2.
