(* WeighedDistance (src/weighed-distance.cc). *)
From Coq Require Import Reals ZArith.
From Verif Require Import Base XReal.
Open Scope R_scope.

(* ------------------------------------------------------------- weights *)
(* lines 188-197 weights(ws): the weights afterwards and the outcome *)
Definition set_weights (cur ws : list xr) : list xr * res unit :=
  if (length ws =? length cur)%nat then (ws, Ok tt) else (cur, Throw).

(* lines 203-212 setWeight(rank, weight); size_type is a signed integer, a
   negative rank passes the test and is an out of range access *)
Definition set_weight (cur : list xr) (rank : Z) (w : xr) : list xr * res unit :=
  if (rank <? Z.of_nat (length cur))%Z then
    if (rank <? 0)%Z then (cur, UB)
    else (firstn (Z.to_nat rank) cur ++ w :: skipn (S (Z.to_nat rank)) cur, Ok tt)
  else (cur, Throw).

(* lines 214-245 computeWeights.  [lengths] : the non negative value computed
   by ComputeWeightStep for each joint (singular values, not modelled).
   [done] : weights_[0 .. i-2]; after weights_[i-1] is written every null
   weight up to i-1 is replaced by the smallest positive length seen so far,
   infinity if there is none. *)
Definition is_zero (x : xr) : bool := match x with Fin r => reqb r 0 | _ => false end.
Fixpoint weights_loop (lengths : list R) (minlen : xr) (done : list xr) : list xr :=
  match lengths with
  | [] => done
  | len :: l =>
      let better := match minlen with Fin m => rltb len m | PInf => true | _ => false end in
      let minlen' := if better && rltb 0 len then Fin len else minlen in
      let done' := map (fun w => if is_zero w then minlen' else w) (done ++ [Fin len]) in
      weights_loop l minlen' done'
  end.
Definition compute_weights (lengths : list R) : list xr := weights_loop lengths PInf [].

(* ------------------------------------------------------------ distance *)
(* A configuration: one value of type X per joint, extra coordinates. *)
Section Dist.
Variable X : Type.
Record config := mkConf { joint : nat -> X; extra : nat -> R }.

Variable njoints : nat.               (* model.njoints - 1 *)
Variable nextra : nat.                (* extraConfigSpace().dimension() *)
(* squaredDistance of the Lie group of joint k with weight w: w times the
   squared distance for joints with a rotation, the squared distance alone for
   the others (hpp-pinocchio, not part of this repository; abstracted by the
   distance [jdist k] and the flag [rot k]) *)
Variable jdist : nat -> X -> X -> R.
Variable rot : nat -> bool.
Definition squared_distance (k : nat) (a b : X) (w : xr) : xr :=
  let d2 := Fin (jdist k a b * jdist k a b) in
  if rot k then xmul w d2 else d2.

(* lines 263-278 impl_distance: the loop over the joints from k on *)
Fixpoint dist_loop (fuel k : nat) (ws : list xr) (q1 q2 : config) (acc : xr) : res xr :=
  match fuel with
  | O => Ok acc
  | S f =>
      match nth_error ws k with
      | None => UB
      | Some w =>
          dist_loop f (S k) ws q1 q2
            (xadd acc (squared_distance k (joint q1 k) (joint q2 k) (xmul w w)))
      end
  end.
Fixpoint extra_norm (m : nat) (q1 q2 : config) : R :=
  match m with
  | O => 0
  | S k => extra_norm k q1 q2 + (extra q1 k - extra q2 k) * (extra q1 k - extra q2 k)
  end.
Definition xsqrt (x : xr) : xr :=
  match x with
  | Fin r => if rltb r 0 then NaN else Fin (sqrt r)
  | PInf => PInf
  | _ => NaN
  end.
Definition impl_distance (ws : list xr) (q1 q2 : config) : res xr :=
  match dist_loop njoints 0 ws q1 q2 (Fin 0) with
  | Ok r => Ok (xsqrt (xadd r (Fin (extra_norm nextra q1 q2))))
  | Throw => Throw | UB => UB | Fuel => Fuel
  end.
End Dist.
Arguments mkConf {X}. Arguments joint {X}. Arguments extra {X}.
