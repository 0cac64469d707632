(* Model of the partial shortcut optimizer:
   src/path-optimization/partial-shortcut.cc.

   The numbers are an arbitrary type [T] with the operations the code uses, so
   that the same definitions run on rationals and are studied on reals.

   Simplifications.
   - a path vector is the list of its sub-paths, already flattened (unpack,
     lines 47-56; flatten, line 146): [steer] (src/path-optimizer.cc 48-57,
     steering method then path projector) returns the list of sub-paths of the
     path it builds;
   - PathValidation::validate of a vector is the function [valid];
   - the value and extraction of a vector, modelled in VecModel.v, are the
     functions [veval] and [vcut];
   - the joints are an abstract type; InterpolateStep::run of pinocchio on
     joint j (lines 122-127) is [mix j q1 q2 u q]: q where the coordinates of
     joint j are those of the interpolation between q1 and q2;
   - generateJointVector (150-180) is reduced to the null pointer it may
     dereference: the joints are an argument of the optimizer;
   - what a failed evaluation writes is the arbitrary function [junk];
   - rand () / RAND_MAX is a pair of numbers per iteration. *)
From Verif Require Import Base.

Section PartialCut.
Variables C P J T : Type.
Variable tzero : T.
Variables tadd tsub tmul tdiv : T -> T -> T.
Variable tltb : T -> T -> bool.          (* a < b *)
Variable init fin : P -> C.
Variable rng : P -> T * T.               (* Path::timeRange *)
Variable cons : P -> option (C -> option C).  (* constraints (): null, or apply *)
Variable dist : C -> C -> T.
Variable steer : C -> C -> option (list P).
Variable valid : list P -> bool.
Variable mix : J -> C -> C -> T -> C -> C.

Definition len (p : P) : T := tsub (snd (rng p)) (fst (rng p)).
(* timeRange ().second of the vector *)
Fixpoint vlen (l : list P) : T :=
  match l with [] => tzero | p :: r => tadd (len p) (vlen r) end.

(* lines 58-68: pathLength *)
Definition path_length (l : list P) : T :=
  fold_left (fun r p => tadd r (dist (init p) (fin p))) l tzero.

(* src/path-vector.cc 40-69: rankAtParam *)
Fixpoint rank_loop (l : list P) (param : T) (i : nat) : res (nat * T) :=
  match l with
  | [] => Throw
  | p :: rest =>
      if tltb (len p) param then
        match rest with
        | [] => Ok (i, snd (rng p))
        | _ => rank_loop rest (tsub param (len p)) (S i)
        end
      else Ok (i, tadd param (fst (rng p)))
  end.
Definition rank (l : list P) (param : T) : res (nat * T) := rank_loop l param 0.

(* lines 116-140: the sub-paths of ranks rkAtP1 to rkAtP2 - 1.  None: a null
   pointer is returned. Returns the last configuration and the pieces. *)
Fixpoint gen_loop (j : J) (q1 q2 : C) (span : T) (l : list P) (qi : C) (t : T) : option (C * list P) :=
  match l with
  | [] => Some (qi, [])
  | p :: l' =>
      let t' := tadd t (len p) in
      let q := mix j q1 q2 (tdiv t' span) (fin p) in
      match (match cons p with None => Some q | Some f => f q end) with
      | None => None
      | Some q' =>
          match steer qi q' with
          | None => None
          | Some ps =>
              match gen_loop j q1 q2 span l' q' t' with
              | None => None
              | Some (qe, r) => Some (qe, ps ++ r)
              end
          end
      end
  end.
(* lines 100-148: generatePath *)
Definition generate (l : list P) (j : J) (t1 : T) (q1 : C) (t2 : T) (q2 : C) : res (option (list P)) :=
  bind (rank l t1) (fun '(r1, lt1) =>
  bind (rank l t2) (fun '(r2, _) =>
    if r1 =? r2 then Ok None
    else
      match gen_loop j q1 q2 (tsub t2 t1) (firstn (r2 - r1) (skipn r1 l)) q1 (tsub tzero lt1) with
      | None => Ok None
      | Some (qe, r) =>
          match steer qe q2 with
          | None => Ok None
          | Some ps => Ok (Some (r ++ ps))
          end
      end)).

(* lines 182-220: optimizeFullPath, the loop on the joints; returns the vector
   and jvOut *)
Fixpoint full_loop (q0 q3 : C) (js : list J) (opted : list P) : res (list P * list J) :=
  match js with
  | [] => Ok (opted, [])
  | j :: js' =>
      bind (generate opted j tzero q0 (vlen opted) q3) (fun o =>
        match (match o with Some r => if valid r then Some r else None | None => None end) with
        | Some r => full_loop q0 q3 js' r
        | None => bind (full_loop q0 q3 js' opted) (fun '(r, out) => Ok (r, j :: out))
        end)
  end.

Section Random.
Variable veval : list P -> T -> option C.
Variable vcut : list P -> T -> T -> res (list P).
Variable junk : nat -> C.
Variable draw : nat -> T * T.
Variable margin : T.                      (* progressionMargin *)

(* local variables of optimizeRandom *)
Record state := mkS {
  r_cur : list P;      (* current *)
  r_res : list P;      (* result *)
  r_len : T;           (* length *)
  r_fail : nat;        (* nbFail *)
  r_j : nat }.         (* iJ *)

(* lines 268-280 and 287-301: one of the three parts *)
Definition try_part (cur : list P) (j : J) (ta : T) (qa : C) (tb : T) (qb : C) : res (option (list P)) :=
  bind (generate cur j ta qa tb qb) (fun o =>
    Ok (match o with Some r => if valid r then Some r else None | None => None end)).
Definition part (cur : list P) (o : option (list P)) (ta tb : T) : res (list P) :=
  match o with Some r => Ok r | None => vcut cur ta tb end.

(* lines 241-317: one turn of the loop.  At line 258 the test is the wrong way
   round: the body goes on when an evaluation failed, with q2 not initialized
   if it is that of q1. *)
Definition body (js : list J) (q0 q3 : C) (k : nat) (s : state) : res state :=
  let iJ := (r_j s) mod (length js) in
  match nth_error js iJ with
  | None => UB
  | Some j =>
      let cur := r_cur s in
      let t3 := vlen cur in
      let u2 := tmul t3 (fst (draw k)) in
      let u1 := tmul t3 (snd (draw k)) in
      let (t1, t2) := if tltb u1 u2 then (u1, u2) else (u2, u1) in
      match veval cur t1 with
      | None => UB
      | Some q1 =>
          match veval cur t2 with
          | Some q2 => Ok (mkS cur (r_res s) (r_len s) (S (r_fail s)) (S iJ))
          | None =>
              let q2 := junk k in
              bind (try_part cur j tzero q0 t1 q1) (fun a =>
              bind (try_part cur j t1 q1 t2 q2) (fun b =>
              bind (try_part cur j t2 q2 t3 q3) (fun c =>
              match a, b, c with
              | None, None, None => Ok (mkS cur (r_res s) (r_len s) (S (r_fail s)) (S iJ))
              | _, _, _ =>
                  bind (part cur a tzero t1) (fun ra =>
                  bind (part cur b t1 t2) (fun rb =>
                  bind (part cur c t2 t3) (fun rc =>
                  let r := ra ++ rb ++ rc in
                  let nl := path_length r in
                  if negb (tltb nl (r_len s)) then Ok (mkS cur r (r_len s) (S (r_fail s)) (S iJ))
                  else Ok (mkS r r nl (if tltb nl (tsub (r_len s) margin) then 0 else S (r_fail s)) iJ))))
              end)))
          end
      end
  end.
(* line 240 *)
Fixpoint random_loop (fuel : nat) (js : list J) (mx : nat) (q0 q3 : C) (k : nat) (s : state) : res state :=
  if r_fail s <? mx then
    match fuel with
    | O => Fuel
    | S f => bind (body js q0 q3 k s) (fun s' => random_loop f js mx q0 q3 (S k) s')
    end
  else Ok s.
(* lines 222-320: optimizeRandom; [nf] is numberOfConsecutiveFailurePerJoints *)
Definition random_opt (fuel nf : nat) (q0 q3 : C) (pv : list P) (js : list J) : res (list P) :=
  bind (random_loop fuel js (length js * nf) q0 q3 0 (mkS pv pv (path_length pv) 0 0)) (fun s => Ok (r_res s)).

(* lines 82-98: optimize.  pathAtRank (0) of an empty vector is UB, and so is
   line 156 when its constraints are a null pointer. *)
Definition partial_optimize (onlyFull : bool) (fuel nf : nat) (js : list J) (pv : list P) : res (list P) :=
  match pv with
  | [] => UB
  | p0 :: _ =>
      match cons p0 with
      | None => UB
      | Some _ =>
          let q0 := init p0 in
          let q3 := fin (last pv p0) in
          bind (full_loop q0 q3 js pv) (fun '(r, out) =>
            if onlyFull then Ok r else random_opt fuel nf q0 q3 r out)
      end
  end.
End Random.
End PartialCut.

Arguments mkS {P T}. Arguments r_cur {P T}. Arguments r_res {P T}. Arguments r_len {P T}.
Arguments r_fail {P T}. Arguments r_j {P T}.
