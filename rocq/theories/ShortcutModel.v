(* Model of the random shortcut optimizer:
   src/path-optimization/random-shortcut.cc and steer / shouldStop of
   src/path-optimizer.cc.

   Simplifications: those of VecModel.v, and
   - PathOptimizer::steer (src/path-optimizer.cc 48-57: steering method then
     path projector, null when one of them fails) is the function [steer];
   - PathValidation::validate is the function [valid]; its report and valid
     part are not used by the code;
   - the k-th call to shouldStop returns [stop k]: interruption, iteration
     limit and time out (src/path-optimizer.cc 66-77) are not told apart;
   - rand () / RAND_MAX is a pair of numbers per iteration. *)
From Verif Require Import Base QcTac VecModel.
Open Scope Qc_scope.

Section Shortcut.
Variables C P : Type.
Variable init fin : P -> C.
Variable rng : P -> Qc * Qc.
Variable ev : P -> Qc -> option C.
Variable cut : P -> Qc * Qc -> res P.
Variable dist : C -> C -> Qc.            (* problem ()->distance () *)
Variable steer : C -> C -> option P.
Variable valid : P -> bool.
Variable stop : nat -> bool.
Variable draw : nat -> Qc * Qc.          (* first and second rand () / RAND_MAX *)

(* random-shortcut.cc 47-64: _PathLength<false>::run *)
Definition dlen (l : list P) : Qc :=
  fold_left (fun r p => r + dist (init p) (fin p)) l 0.

(* random-shortcut.cc 181-194: shootTimes *)
Definition shoot (k : nat) (t0 t3 : Qc) : Qc * Qc :=
  let u2 := (t3 - t0) * fst (draw k) in
  let u1 := (t3 - t0) * snd (draw k) in
  if qltb u1 u2 then (t0 + u1, t0 + u2) else (t0 + u2, t0 + u1).

(* local variables of optimize; an entry None of the deque is infinity *)
Record state := mkS {
  s_tmp : list P;                (* tmpPath *)
  s_len : list (option Qc);      (* length *)
  s_err : nat;                   (* projectionError *)
  s_res : option (list P);       (* result, null at first *)
  s_fin : bool }.                (* finished *)

Definition fail (s : state) : state :=
  mkS (s_tmp s) (s_len s) (s_err s - 1) (s_res s) (s_fin s).
(* lines 147-153 and 155-159: result = tmpPath; projectionError-- *)
Definition give_up (s : state) : state :=
  mkS (s_tmp s) (s_len s) (s_err s - 1) (Some (s_tmp s)) (s_fin s).

(* lines 126-135 and 140-146: one turn of the loop; a null or refused
   straight piece is replaced by the corresponding part of the path *)
Definition add_part (tmp acc : list P) (o : option P) (a b : Qc) : res (list P) :=
  match o with
  | Some p => if valid p then Ok (acc ++ [p])
              else bind (vextract rng cut tmp a b) (fun e => Ok (acc ++ e))
  | None => bind (vextract rng cut tmp a b) (fun e => Ok (acc ++ e))
  end.

(* line 155: infinity <= x is false, x <= infinity is true *)
Definition le_inf (a : option Qc) (x : Qc) : bool :=
  match a with None => false | Some y => qleb y x end.
(* line 163: (length[0] - length[n-1]) <= 1e-4 * length[n-1] *)
Definition small_gain (first : option Qc) (last : Qc) : bool :=
  match first with None => false | Some f => qleb (f - last) (Q2Qc (1 # 10000) * last) end.

(* lines 154-167 *)
Definition compare (n : nat) (s : state) (r : list P) : res state :=
  let nl := dlen r in
  match nth_error (s_len s) (n - 1) with
  | None => UB
  | Some cur =>
      if le_inf cur nl then Ok (give_up s)
      else
        let d := tl (s_len s ++ [Some nl]) in
        match nth_error d 0, nth_error d (n - 1) with
        | Some f, Some (Some lst) => Ok (mkS r d n (Some r) (small_gain f lst))
        | _, _ => UB
        end
  end.

(* body of the loop: lines 98-167 *)
Definition body (n : nat) (q0 q3 : C) (k : nat) (s : state) : res state :=
  let t0 := 0 in
  let t3 := vlen rng (s_tmp s) in
  let (t1, t2) := shoot k t0 t3 in
  bind (veval rng ev (s_tmp s) t1) (fun o1 =>
  match o1 with
  | None => Ok (fail s)
  | Some q1 =>
  bind (veval rng ev (s_tmp s) t2) (fun o2 =>
  match o2 with
  | None => Ok (fail s)
  | Some q2 =>
      let p0 := steer q0 q1 in
      let p1 := steer q1 q2 in
      let p2 := steer q2 q3 in
      match p0, p1, p2 with
      | None, None, None => Ok (fail s)
      | _, _, _ =>
          match bind (add_part (s_tmp s) [] p0 t0 t1) (fun r =>
                bind (add_part (s_tmp s) r p1 t1 t2) (fun r =>
                add_part (s_tmp s) r p2 t2 t3)) with
          | Ok r => compare n s r
          | Throw => Ok (give_up s)
          | UB => UB
          | Fuel => Fuel
          end
      end
  end)
  end).

(* lines 97-168; the fuel bounds the number of turns *)
Fixpoint loop (fuel : nat) (n : nat) (q0 q3 : C) (k : nat) (s : state) : res state :=
  match fuel with
  | O => Fuel
  | S f =>
      if stop k || s_fin s || (s_err s =? 0)%nat then Ok s
      else bind (body n q0 q3 k s) (fun s' => loop f n q0 q3 (S k) s')
  end.

(* lines 74-179: optimize.  n is the parameter NumberOfLoops; with 0 (or a
   negative value) the size of the deque wraps around and its allocation
   throws (length_error): Throw. *)
Definition optimize (fuel : nat) (n : nat) (path : list P) : res (list P) :=
  bind (vinit init path) (fun q0 =>
  bind (vfin fin path) (fun q3 =>
  match n with
  | O => Throw
  | S m =>
      bind (loop fuel n q0 q3 0
             (mkS path (repeat None m ++ [Some (dlen path)]) n None false))
        (fun s => Ok (match s_res s with None => path | Some r => r end))
  end)).

End Shortcut.

Arguments mkS {P} s_tmp s_len s_err s_res s_fin.
Arguments s_tmp {P} s.
Arguments s_len {P} s.
Arguments s_err {P} s.
Arguments s_res {P} s.
Arguments s_fin {P} s.
