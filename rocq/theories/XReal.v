(* Real numbers as used by the numerical models: boolean comparisons, the
   values of a double (finite, infinite, NaN) without rounding. *)
From Coq Require Import Reals.
From Verif Require Import Base.
Open Scope R_scope.

Definition rltb (a b : R) : bool := if Rlt_dec a b then true else false.
Definition rleb (a b : R) : bool := if Rle_dec a b then true else false.
Definition reqb (a b : R) : bool := if Req_EM_T a b then true else false.

Declare Scope res_scope.
Notation "'do' x <- r ; e" := (bind r (fun x => e)) (at level 200, x pattern at level 0, r at level 100, e at level 200) : res_scope.
Open Scope res_scope.

(* Reals with infinities and NaN; IEEE rules for the operations used. *)
Inductive xr := Fin (r : R) | PInf | MInf | NaN.
Definition xneg (x : xr) : xr :=
  match x with Fin r => Fin (- r) | PInf => MInf | MInf => PInf | NaN => NaN end.
Definition xadd (x y : xr) : xr :=
  match x, y with
  | Fin a, Fin b => Fin (a + b)
  | NaN, _ | _, NaN => NaN
  | PInf, MInf | MInf, PInf => NaN
  | PInf, _ | _, PInf => PInf
  | MInf, _ | _, MInf => MInf
  end.
Definition xsign_inf (r : R) (pos neg : xr) : xr :=
  if rltb 0 r then pos else if rltb r 0 then neg else NaN.
Definition xmul (x y : xr) : xr :=
  match x, y with
  | Fin a, Fin b => Fin (a * b)
  | NaN, _ | _, NaN => NaN
  | Fin a, PInf | PInf, Fin a => xsign_inf a PInf MInf
  | Fin a, MInf | MInf, Fin a => xsign_inf a MInf PInf
  | PInf, PInf | MInf, MInf => PInf
  | PInf, MInf | MInf, PInf => MInf
  end.
Definition xle0 (x : xr) : bool :=
  match x with Fin r => rleb r 0 | MInf => true | _ => false end.
Definition xge0 (x : xr) : bool :=
  match x with Fin r => rleb 0 r | PInf => true | _ => false end.
Definition xmin (x y : xr) : xr :=
  match x, y with
  | NaN, _ | _, NaN => NaN
  | MInf, _ | _, MInf => MInf
  | PInf, z | z, PInf => z
  | Fin a, Fin b => Fin (Rmin a b)
  end.
Definition is_nan (x : xr) : bool := match x with NaN => true | _ => false end.

