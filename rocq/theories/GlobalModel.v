(* Model of the global path projector: src/path-projector/global.cc.  All the
   interpolation points are moved together, one step of the solver at a time.

   Simplifications.
   - value_type is Qc: no rounding.  Assertions are left out.
   - one step of the solver (oneStep, lastStep, sigma of hpp-constraints) is an
     arbitrary function of the state of the line search and of the
     configuration.
   - the tests of lines 270-308 (the two last moved points are moved apart) are
     the arbitrary function [jump] of the two configurations before the step
     and of the two steps.  The first time, one of the configurations read is
     not initialised (line 255): [mem].
   - constraints of the path are satisfied or not ([sat]) whatever the
     parameter.
   The iterator [last] cuts the list of points in two: points before, points
   from it on. *)
From Coq Require Import QArith.Qround List Bool ZArith.
From Verif Require Import Base QcTac.
Import ListNotations.
Open Scope Qc_scope.
Local Notation "'do' x <- r ; e" := (bind r (fun x => e)) (at level 200, x pattern at level 0, r at level 100, e at level 200).

Section Global.
Variables C LS V : Type.
Variable dist : C -> C -> Qc.                    (* path-projector.cc l.59-61 *)
Variable interp : C -> C -> Qc -> C.             (* pinocchio::interpolate *)
Variable sat : C -> bool.                        (* isSatisfied of the constraints *)
Record move := { m_ok : bool; m_q : C; m_ls : LS; m_dq : V; m_sigma : Qc }.
Variable one : LS -> C -> move.                  (* oneStep (q, lineSearch), lastStep (), sigma () *)
Variable ls0 : LS.                               (* LineSearch_t () *)

(* the path to project; [points] for an InterpolatedPath *)
Record path := { init : C; fin : C; len : Qc; at_ : Qc -> C; points : option (list C); constrained : bool }.
(* the result *)
Inductive out := Same | Interp (l : list (Qc * C)).

(* interpolated-path.hh l.167-169: std::map::insert does not overwrite *)
Fixpoint minsert (t : Qc) (q : C) (m : list (Qc * C)) : list (Qc * C) :=
  match m with
  | [] => [(t, q)]
  | (t', q') :: m' =>
      if qltb t t' then (t, q) :: m
      else if qltb t' t then (t', q') :: minsert t q m' else m
  end.
(* l.510-517 and l.561-565 *)
Fixpoint insert_all (t : Qc) (l : list (Qc * C)) (m : list (Qc * C)) : list (Qc * C) :=
  match l with
  | [] => m
  | (d, q) :: l' => insert_all (t + d) l' (minsert (t + d) q m)
  end.
(* l.506-521 and l.557-569: the path through [q0], then the points of [l] with
   their distances to the previous ones.  The last one is given to
   InterpolatedPath::create, which checks the ends (interpolated-path.cc
   l.112-116). *)
Definition build (q0 : C) (l : list (Qc * C)) : res out :=
  let total := fold_left (fun x p => x + fst p) l 0 in
  let m := minsert total (snd (last l (0, q0))) (minsert 0 q0 []) in
  if sat (snd (hd (0, q0) m)) && sat (snd (last m (0, q0))) then Ok (Interp (insert_all 0 (removelast l) m)) else Throw.

(* ------------------------------------------------ without bound: l.129-179 *)
Section Step.
Variable step : Qc.                              (* step_ *)
Variable jump : C -> C -> V -> V -> bool.
Variable v0 : V.                                 (* zero *)

(* an inner point: configuration, projected, line search, distance to the
   previous point *)
Record node := { n_q : C; n_b : bool; n_a : LS; n_l : Qc }.
Definition with_l (n : node) (l : Qc) : node := {| n_q := n_q n; n_b := n_b n; n_a := n_a n; n_l := l |}.
Definition with_a (n : node) (a : LS) : node := {| n_q := n_q n; n_b := n_b n; n_a := a; n_l := n_l n |}.
(* [q0], points before [last], points from [last] on, end and its distance to
   the previous point *)
Record state := { s_pre : list node; s_post : list node; s_l : Qc }.

(* projectOneStep, l.241-323.  [a]: the line search of the first point, since
   itA is not incremented.  [acc]: points already seen, last first.  [prev]:
   *itCp; [pu]: prevUpdated; [cur], [other]: columns iCol and iNCol of oldQ and
   dq. *)
Inductive swept := Swept (acc : list node) (a : LS) (prev : C) (pu all : bool)
                 | Jumped (acc : list node) (a : LS) (rest : list node).
Fixpoint sweep (l : list node) (acc : list node) (a : LS) (prev : C) (pu all : bool) (cur other : C * V) : swept :=
  match l with
  | [] => Swept acc a prev pu all
  | n :: l' =>
    if n_b n then
      let n' := if pu then with_l n (dist prev (n_q n)) else n in
      sweep l' (n' :: acc) a (n_q n) false all cur other
    else
      let m := one a (n_q n) in
      let cur := (n_q n, m_dq m) in
      let n1 := {| n_q := m_q m; n_b := m_ok m; n_a := n_a n; n_l := n_l n |} in
      let n2 := with_l n1 (dist prev (m_q m)) in
      if pu then
        if jump (fst cur) (fst other) (snd cur) (snd other) then Jumped acc (m_ls m) (n1 :: l')
        else sweep l' (n2 :: acc) (m_ls m) (m_q m) true (all && m_ok m) other cur
      else sweep l' (n2 :: acc) (m_ls m) (m_q m) true (all && m_ok m) cur other
  end.
(* the line search of the first point is written *)
Definition set_first (a : LS) (l : list node) : list node := match l with [] => [] | n :: l' => with_a n a :: l' end.
(* [qe]: the last configuration.  l.320 writes the distance of the point
   [last] as if it were the end. *)
Definition one_sweep (mem : C * C) (q0 qe : C) (s : state) : res (bool * state) :=
  match s_pre s with
  | [] => Ok (true, s)
  | n :: _ =>
    match sweep (s_pre s) [] (n_a n) q0 false true (fst mem, v0) (snd mem, v0) with
    | Swept acc a prev pu all =>
      let pre := set_first a (rev acc) in
      Ok (all, if pu then
                 match s_post s with
                 | [] => {| s_pre := pre; s_post := []; s_l := dist prev qe |}
                 | n :: post => {| s_pre := pre; s_post := with_l n (dist prev qe) :: post; s_l := s_l s |}
                 end
               else {| s_pre := pre; s_post := s_post s; s_l := s_l s |})
    | Jumped acc a rest =>
      (* last = it; --last *)
      match acc with
      | [] => UB
      | n :: acc' =>
        match rev acc' with
        | [] => Ok (false, {| s_pre := []; s_post := with_a n a :: rest ++ s_post s; s_l := s_l s |})
        | n1 :: pre => Ok (false, {| s_pre := with_a n1 a :: pre; s_post := n :: rest ++ s_post s; s_l := s_l s |})
        end
      end
    end
  end.

(* reinterpolate, l.352-410; [ql]: configuration of the point [last].  The
   points, their number minus the one before, and the distance of [last] when
   it is written *)
Fixpoint reinterpolate (fuel : nat) (prev : C) (l : list node) (ql : C) : res (list node * Z * option Qc) :=
  match fuel with
  | O => Fuel
  | S f =>
    match l with
    | [] => Ok ([], 0%Z, None)
    | n :: l' =>
      if qltb step (n_l n) then
        let q := interp prev (n_q n) (Q2Qc (1 # 2)) in
        let m := {| n_q := q; n_b := false; n_a := ls0; n_l := dist prev q |} in
        (do r <- reinterpolate f prev (m :: with_l n (dist q (n_q n)) :: l') ql ;
         let '(l1, z, w) := r in Ok (l1, (z + 1)%Z, w))
      else if qltb (n_l n) (step * Q2Qc (1 # 100)) then
        match l' with
        | [] => Ok ([], (-1)%Z, Some (dist prev ql))
        | n' :: l'' =>
          do r <- reinterpolate f prev (with_l n' (dist prev (n_q n')) :: l'') ql ;
          let '(l1, z, w) := r in Ok (l1, (z - 1)%Z, w)
        end
      else
        do r <- reinterpolate f (n_q n) l' ql ;
        let '(l1, z, w) := r in Ok (n :: l1, z, w)
    end
  end.
Definition reinterpolated (fuel : nat) (q0 qe : C) (s : state) : res (Z * state) :=
  let ql := match s_post s with [] => qe | n :: _ => n_q n end in
  do r <- reinterpolate fuel q0 (s_pre s) ql ;
  let '(pre, z, w) := r in
  Ok (z, match w with
         | None => {| s_pre := pre; s_post := s_post s; s_l := s_l s |}
         | Some d => match s_post s with
                     | [] => {| s_pre := pre; s_post := []; s_l := d |}
                     | n :: post => {| s_pre := pre; s_post := with_l n d :: post; s_l := s_l s |}
                     end
         end).

(* the loop, l.151-169: [maxIter], [maxCfg] *)
Variable mem : nat -> C * C.
Fixpoint iterate (fuel : nat) (q0 qe : C) (maxIter maxCfg : nat) (s : state) (nbIter : nat) : res state :=
  match fuel with
  | O => Fuel
  | S f =>
    do r <- one_sweep (mem f) q0 qe s ;
    let (done, s1) := r in
    if done : bool then Ok s1
    else
      do r <- (if Nat.ltb (length (s_pre s1) + length (s_post s1) + 2) maxCfg then reinterpolated f q0 qe s1 else Ok (0%Z, s1)) ;
      let (z, s2) := r in
      let nbIter := S (if (0 <? z)%Z then O else nbIter) in
      if Nat.ltb maxIter nbIter then Ok s2 else iterate f q0 qe maxIter maxCfg s2 nbIter
  end.

(* createPath, l.461-525: the points in front which are projected and not too
   far from the previous one *)
Fixpoint front (l : list node) : list (Qc * C) * bool :=
  match l with
  | [] => ([], true)
  | n :: l' =>
    if negb (n_b n) || qltb step (n_l n) then ([], false)
    else let (r, b) := front l' in ((n_l n, n_q n) :: r, b)
  end.
Definition create_path (q0 qe : C) (s : state) : res (bool * out) :=
  let (l, full) := front (s_pre s ++ s_post s) in
  do o <- build q0 (if full then l ++ [(s_l s, qe)] else l) ; Ok (full, o).

(* initialConfigList, l.575-601: the inner configurations; None: fewer than two
   points, cfgs.size () - 2 is negative *)
Fixpoint samples (fuel : nat) (p : path) (t : Qc) : res (list C) :=
  match fuel with
  | O => Fuel
  | S f => if qltb t (len p) then (do l <- samples f p (t + step * Q2Qc (99 # 100)) ; Ok (at_ p t :: l)) else Ok []
  end.
Definition config_list (fuel : nat) (p : path) : res (C * list C * C) :=
  match points p with
  | Some (q0 :: ((_ :: _) as l)) => Ok (q0, removelast l, last l q0)
  | Some _ => UB
  | None => do l <- samples fuel p step ; Ok (init p, l, fin p)
  end.
Definition fresh (q : C) : node := {| n_q := q; n_b := false; n_a := ls0; n_l := 0 |}.
Definition project (fuel maxIter : nat) (p : path) : res (bool * out) :=
  do r <- config_list fuel p ;
  let '(q0, l, qe) := r in
  match l with
  | [] => Ok (true, Same)
  | _ =>
    if qltb 0 step then
      let maxCfg := (2 + Z.to_nat (Qfloor (this (Q2Qc 10 * len p / step))))%nat in
      (do s <- iterate fuel q0 qe maxIter maxCfg {| s_pre := map fresh l; s_post := []; s_l := 0 |} 0 ;
       create_path q0 qe s)
    else UB
  end.
End Step.

(* --------------------------------- with a bound of the Hessian: l.181-239 *)
Section Hessian.
Variables step K thrmin : Qc.                    (* step_, hessianBound_, thresholdMin_ *)
Variable maxIter : nat.                          (* p.maxIterations () *)
Record data := { d_q : C; d_len : Qc; d_a : LS; d_n : nat; d_sigma : Qc; d_pr : bool }.
Definition with_len (x : data) (l : Qc) : data := {| d_q := d_q x; d_len := l; d_a := d_a x; d_n := d_n x; d_sigma := d_sigma x; d_pr := d_pr x |}.
(* initData, l.631-649 *)
Definition init_data (q : C) (pr : bool) (prev : option C) : data :=
  {| d_q := q; d_len := match prev with Some q' => dist q' q | None => 0 end; d_a := ls0; d_n := 0;
     d_sigma := m_sigma (one ls0 q); d_pr := pr |}.
(* initialConfigList, l.603-629: the points after the first.  For an
   InterpolatedPath none is marked as projected, not even the end. *)
Fixpoint datas_of (prev : C) (l : list C) : list data :=
  match l with [] => [] | q :: l' => init_data q false (Some prev) :: datas_of q l' end.
Definition initial_datas (p : path) : list data :=
  match points p with
  | Some [] => []                                (* ++begin of an empty map *)
  | Some (q0 :: l) => init_data (init p) true None :: datas_of q0 l
  | None => [init_data (init p) true None; init_data (fin p) true (Some (init p))]
  end.
(* [last] = end () when [h_post] is empty *)
Record hstate := { h_pre : list data; h_post : list data }.

(* projectOneStep, l.325-350, after the first point *)
Fixpoint hsweep (l : list data) (prev : C) (pu all : bool) : list data * C * bool * bool :=
  match l with
  | [] => ([], prev, pu, all)
  | x :: l' =>
    if d_pr x then
      let x' := if pu then with_len x (dist prev (d_q x)) else x in
      let '(r, p, u, a) := hsweep l' (d_q x) false all in (x' :: r, p, u, a)
    else
      let m := one (d_a x) (d_q x) in
      let x' := {| d_q := m_q m; d_len := dist prev (m_q m); d_a := m_ls m; d_n := S (d_n x); d_sigma := m_sigma m; d_pr := m_ok m |} in
      let '(r, p, u, a) := hsweep l' (m_q m) true (all && m_ok m) in (x' :: r, p, u, a)
  end.
(* the point [last] is written, l.347; an empty [h_pre] makes the loop run past
   the end *)
Definition hone (s : hstate) : res (bool * hstate) :=
  match h_pre s with
  | [] => UB
  | x :: l =>
    let '(r, p, u, a) := hsweep l (d_q x) false true in
    if u then
      match h_post s with
      | [] => UB
      | y :: post => Ok (a, {| h_pre := x :: r; h_post := with_len y (dist p (d_q y)) :: post |})
      end
    else Ok (a, {| h_pre := x :: r; h_post := h_post s |})
  end.
(* reinterpolate, l.412-459; [acc]: the points before [prev], last first *)
Fixpoint hreint (fuel : nat) (acc : list data) (prev : data) (l post : list data) : res (nat * hstate) :=
  match fuel with
  | O => Fuel
  | S f =>
    match l with
    | [] => Ok (O, {| h_pre := rev (prev :: acc); h_post := post |})
    | x :: l' =>
      if qltb (d_sigma prev) (thrmin * K) || Nat.leb maxIter (d_n prev) then
        Ok (O, {| h_pre := rev acc; h_post := prev :: l ++ post |})
      else if qltb (d_sigma x) (thrmin * K) then
        Ok (O, {| h_pre := rev (prev :: acc); h_post := l ++ post |})
      else if qltb ((d_sigma prev + d_sigma x) / K) (d_len x) then
        let q := interp (d_q prev) (d_q x) (d_sigma prev / (K * d_len x)) in
        let y := init_data q false (Some (d_q prev)) in
        (do r <- hreint f (prev :: acc) y (with_len x (dist q (d_q x)) :: l') post ;
         Ok (S (fst r), snd r))
      else hreint f (prev :: acc) x l' post
    end
  end.
Definition hreinterpolate (fuel : nat) (s : hstate) : res (nat * hstate) :=
  match h_pre s with
  | [] => UB
  | x :: l => hreint fuel [] x l (h_post s)
  end.
Definition size (s : hstate) : nat := (length (h_pre s) + length (h_post s))%nat.
(* the loop, l.210-231 *)
Fixpoint hiterate (fuel : nat) (maxCfg : nat) (s : hstate) (nbIter : nat) : res hstate :=
  match fuel with
  | O => Fuel
  | S f =>
    do r <- hone s ;
    let (done, s1) := r in
    do r <- (if Nat.ltb (size s1) maxCfg || done then hreinterpolate f s1 else Ok (O, s1)) ;
    let (z, s2) := r in
    let again := negb done || Nat.ltb 0 z in
    let nbIter := S (if Nat.ltb 0 z then O else nbIter) in
    if Nat.ltb (2 * maxIter) nbIter then Ok s2
    else if again then hiterate f maxCfg s2 nbIter else Ok s2
  end.
(* createPath, l.527-573 *)
Fixpoint hfront (l : list data) : list (Qc * C) * bool :=
  match l with
  | [] => ([], true)
  | x :: l' => if d_pr x then let (r, b) := hfront l' in ((d_len x, d_q x) :: r, b) else ([], false)
  end.
(* for an empty [h_pre] the loop starts after [last] and runs past the end *)
Definition hcreate_path (s : hstate) : res (bool * out) :=
  match h_pre s with
  | [] => UB
  | x :: l =>
    let (r, b) := hfront l in
    do o <- build (d_q x) r ; Ok (match h_post s with [] => b | _ => false end, o)
  end.
Definition project2 (fuel : nat) (p : path) : res (bool * out) :=
  do r <- hreinterpolate fuel {| h_pre := initial_datas p; h_post := [] |} ;
  let s := snd r in
  if Nat.eqb (size s) 2 then Ok (true, Same)
  else if qltb 0 step then
    (do s <- hiterate fuel (2 + Z.to_nat (Qfloor (this (Q2Qc 10 * len p / step))))%nat s 0 ;
     hcreate_path s)
  else UB.
End Hessian.

(* impl_apply, l.88-102, for a path which is not a path vector; path vectors are
   in PathProjModel.v.  [constrained]: constraints with a projector of positive
   dimension. *)
Definition global_apply (fuel maxIter : nat) (step thrmin K : Qc) (jump : C -> C -> V -> V -> bool) (v0 : V) (mem : nat -> C * C)
  (p : path) : res (bool * out) :=
  if negb (constrained p) then Ok (true, Same)
  else if qleb K 0 then project step jump v0 mem fuel maxIter p
  else project2 step K thrmin maxIter fuel p.
End Global.
