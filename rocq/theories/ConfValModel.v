(* Validation of a single configuration by a path validation.
   Sources: src/path-validation.cc, src/path-validations.cc 79-86,
   src/path-validation/discretized.cc 110-112,
   src/path-validation/no-validation.hh 44-49, and the continuous validations
   (ContValModel.v). *)
From Verif Require Import Base Ext IntervalsModel ContValModel ValidationsModel.

Section ConfVal.
Variable C : Type.                       (* configurations *)

(* One interval validation: the outcome, for the robot in a configuration, of
   the collision test of each pair of objects (None: collision, Some d: no
   collision, lower bound d of the distance). *)
Definition body_pair := C -> list (option ext).

(* path-validation.cc 39-41: along the path of length 0, the robot is in q at
   every parameter.  The bound of the velocity is not read at length 0
   (body-pair-collision.cc 110-112). *)
Definition pair_of (q : C) (b : body_pair) : pair :=
  mkPair (length (b q)) (fun i _ => nth i (b q) None) (fun _ _ => 0%Q) true.

(* The path validations, and their sets (PathValidations::validations_) *)
Inductive pval : Type :=
| VDich (l : list body_pair)             (* continuousValidation::Dichotomy *)
| VProg (tol : Q) (l : list body_pair)   (* continuousValidation::Progressive *)
| VDisc (ms : list (C -> bool))          (* pathValidation::Discretized *)
| VNone                                  (* pathValidation::NoValidation *)
| VAll (vs : list pval).                 (* PathValidations *)

(* What a report says: a failure of a continuous validation at a parameter, or
   the rank of a configuration validation which failed. *)
Inductive report := RCont (param : Q) | RDisc (rank : nat).

(* path-validation.cc 42-46: the boolean and the report, which is replaced only
   when the validation of the path made one.  The report made for a valid path
   is the null pointer. *)
Definition conf_of_path (r : res vres) (rep : option report) : res (bool * option report) :=
  match r with
  | Ok Valid => Ok (true, rep)
  | Ok (Invalid _ _ t) => Ok (false, Some (RCont t))
  | Throw => Throw
  | UB => UB
  | Fuel => Fuel
  end.

(* validate (q, report).  [fuel] bounds the loop of the continuous
   validations. *)
Fixpoint validate_conf (fuel : nat) (v : pval) (q : C) (rep : option report)
  : res (bool * option report) :=
  match v with
  | VDich l =>
      conf_of_path (snd (dichotomy_validate fuel (fun _ => true) (map (pair_of q) l) false 0 0)) rep
  | VProg tol l =>
      conf_of_path (snd (progressive_validate fuel (fun _ => true) tol (map (pair_of q) l) false 0 0)) rep
  | VDisc ms =>
      (* discretized.cc 110-112: ConfigValidations::validate *)
      match config_validations ms q 0 with
      | None => Ok (true, rep)
      | Some i => Ok (false, Some (RDisc i))
      end
  | VNone => Ok (true, rep)
  | VAll vs =>
      (* path-validations.cc 79-86 *)
      (fix loop (vs : list pval) (rep : option report) : res (bool * option report) :=
         match vs with
         | [] => Ok (true, rep)
         | w :: r =>
             bind (validate_conf fuel w q rep)
                  (fun x => if fst x then loop r (snd x) else Ok (false, snd x))
         end) vs rep
  end.
End ConfVal.
Arguments VDich {C}. Arguments VProg {C}. Arguments VDisc {C}. Arguments VNone {C}. Arguments VAll {C}.
