(* Continuous validation: validation of path vectors, edition of the list of
   pairs of bodies.
   Sources: src/continuous-validation.cc,
   src/continuous-validation/solid-solid-collision.cc,
   include/hpp/core/continuous-validation/body-pair-collision.hh. *)
From Verif Require Import Base.

(* ---- validate (continuous-validation.cc 150-205) on trees of paths ---- *)
(* A path is a path vector (list of sub-paths) or another path, here [leaf].
   Constraints of path vectors are not modelled (pathAtRank then returns the
   sub-path itself). *)
Inductive ptree (leaf : Type) := Leaf (l : leaf) | Vec (ps : list (ptree leaf)).
Arguments Leaf {leaf} l.
Arguments Vec {leaf} ps.
Section Validate.
Variable leaf : Type.
Variable len : leaf -> Q.                       (* Path::length *)
(* validateStraightPath: None when accepted, otherwise valid part and parameter
   of the report.  Modelled as a function of the path and direction. *)
Variable check : bool -> leaf -> option (leaf * Q).
(* length of a path vector: sum over the sub-paths (path-vector.cc appendPath) *)
Fixpoint tlen (p : ptree leaf) : Q :=
  match p with
  | Leaf l => len l
  | Vec ps => fold_left (fun a q => (a + tlen q)%Q) ps 0%Q
  end.
(* outcome: accepted with valid part, or rejected with valid part and report
   parameter.  In reverse, the loop starts with i = numberPaths () + 1 and
   reads pathAtRank (numberPaths ()), past the end of the vector (line 160). *)
Fixpoint tvalidate (reverse : bool) (p : ptree leaf) : res (ptree leaf * option Q) :=
  match p with
  | Leaf l =>
      match check reverse l with
      | None => Ok (Leaf l, None)
      | Some (part, t) => Ok (Leaf part, Some t)
      end
  | Vec ps =>
      if reverse then UB
      else
        (fix loop (ps done : list (ptree leaf)) (param : Q) : res (ptree leaf * option Q) :=
           match ps with
           | [] => Ok (Vec done, None)
           | q :: r =>
               match tvalidate reverse q with
               | Ok (_, None) => loop r (done ++ [q]) (param + tlen q)%Q
               | Ok (part, Some t) => Ok (Vec (done ++ [part]), Some (t + param)%Q)
               | Throw => Throw
               | UB => UB
               | Fuel => Fuel
               end
           end) ps [] 0%Q
  end.
End Validate.

(* ---- pairs of collision objects of a validator ---- *)
(* collision objects are identified by numbers, and so are their names *)
Record cpair := { c_left : nat; c_right : nat }.
(* SolidSolidCollision: indices of the joints, pairs and requests (here the
   security margin of each request), two parallel vectors *)
Record bpc := { ja : nat; jb : nat; prs : list cpair; rqs : list Q }.
(* elements of intervalValidations_: SolidSolidCollision, another
   BodyPairCollision whose joint indices are -1 (the default of the class), or
   an interval validation that is not a BodyPairCollision *)
Inductive vld := Solid (b : bpc) | NoJoint (ps : list cpair) (rs : list Q) | Other (id : nat).

Definition setnth {A} (l : list A) (i : nat) (a : A) : list A :=
  firstn i l ++ (match skipn i l with [] => [] | _ :: r => a :: r end).
(* solid-solid-collision.cc 101-123 removeObjectTo_b, loop: k iterations left *)
Fixpoint compact (o : nat) (ps : list cpair) (rs : list Q) (k i last : nat) : res (list cpair * list Q * nat) :=
  match k with
  | 0 => Ok (ps, rs, last)
  | S k' =>
      match nth_error ps i with
      | None => UB
      | Some p =>
          if c_right p =? o then compact o ps rs k' (i + 1) last
          else if last =? i then compact o ps rs k' (i + 1) (last + 1)
          else match nth_error rs i with
               | None => UB
               | Some r => compact o (setnth ps last p) (setnth rs last r) k' (i + 1) (last + 1)
               end
      end
  end.
Definition remove_object (o : nat) (b : bpc) : res (bpc * bool) :=
  let s := length (prs b) in
  bind (compact o (prs b) (rqs b) s 0 0) (fun '(ps, rs, last) =>
    Ok ({| ja := ja b; jb := jb b; prs := firstn last ps; rqs := firstn last rs |}, negb (last =? s))).

(* continuous-validation.cc 224-252 removeObstacleFromJoint.  After
   [erase (itPair)] the iterator designates the following element, which [++itPair]
   skips; when the erased element was the last one, itPair is end () and ++itPair is
   undefined. *)
Fixpoint remove_loop (j o : nat) (vs : list vld) : res (list vld * bool) :=
  match vs with
  | [] => Ok ([], false)
  | Solid b :: r =>
      if (ja b =? j) && (jb b =? 0) then
        match remove_object o b with
        | Ok (b', true) =>
            match prs b' with
            | [] => match r with
                    | [] => UB
                    | w :: r' => bind (remove_loop j o r') (fun '(vs', _) => Ok (w :: vs', true))
                    end
            | _ => bind (remove_loop j o r) (fun '(vs', _) => Ok (Solid b' :: vs', true))
            end
        | Ok (b', false) => bind (remove_loop j o r) (fun '(vs', f) => Ok (Solid b' :: vs', f))
        | Throw => Throw
        | UB => UB
        | Fuel => Fuel
        end
      else bind (remove_loop j o r) (fun '(vs', f) => Ok (Solid b :: vs', f))
  | v :: r => bind (remove_loop j o r) (fun '(vs', f) => Ok (v :: vs', f))
  end.
Definition remove_obstacle (j o : nat) (vs : list vld) : res (list vld) :=
  bind (remove_loop j o vs) (fun '(vs', removed) => if removed then Ok vs' else Throw).

(* relative-motion.hh: the three types of relative motion *)
Inductive rmotion := Constrained | Parameterized | Unconstrained.
(* 266-299 filterCollisionPairs.  [rel]: the relative motion matrix, of
   dimension n; out of range access is undefined.  The first [continue] does not
   advance the iterator. *)
Fixpoint filter_loop (n : nat) (rel : nat -> nat -> rmotion) (fuel : nat) (vs kept : list vld) (disabled : list vld)
  : res (list vld * list vld) :=
  match fuel with
  | 0 => Fuel
  | S k =>
      match vs with
      | [] => Ok (kept, disabled)
      | Other _ :: _ => filter_loop n rel k vs kept disabled
      | NoJoint _ _ as v :: r => filter_loop n rel k r (kept ++ [v]) disabled
      | Solid b as v :: r =>
          if (ja b <? n) && (jb b <? n) then
            match rel (ja b) (jb b) with
            | Parameterized | Constrained => filter_loop n rel k r kept (disabled ++ [v])
            | Unconstrained => filter_loop n rel k r (kept ++ [v]) disabled
            end
          else UB
      end
  end.
Definition filter_pairs n rel fuel (vs disabled : list vld) := filter_loop n rel fuel vs [] disabled.

(* 301-330 setSecurityMargins; body-pair-collision.hh 113-116.  [njoints] is
   robot_->nbJoints (); joint indices -1 read the matrix out of range. *)
Definition set_margin (m : Q) (v : vld) : vld :=
  match v with
  | Solid b => Solid {| ja := ja b; jb := jb b; prs := prs b; rqs := map (fun _ => m) (rqs b) |}
  | NoJoint ps rs => NoJoint ps (map (fun _ => m) rs)
  | Other i => Other i
  end.
Fixpoint margins_loop (dim : nat) (mat : nat -> nat -> Q) (vs : list vld) : res (list vld) :=
  match vs with
  | [] => Ok []
  | Other i :: r => bind (margins_loop dim mat r) (fun r' => Ok (Other i :: r'))
  | NoJoint _ _ :: _ => UB
  | Solid b :: r =>
      if (ja b <? dim) && (jb b <? dim)
      then bind (margins_loop dim mat r) (fun r' => Ok (set_margin (mat (ja b) (jb b)) (Solid b) :: r'))
      else UB
  end.
Definition set_margins (njoints rows cols : nat) (mat : nat -> nat -> Q) (vs : list vld) : res (list vld) :=
  if negb (rows =? njoints + 1) || negb (cols =? njoints + 1) then Throw
  else margins_loop (njoints + 1) mat vs.

(* 332-366 setSecurityMarginBetweenBodies: [found] is initialised with true *)
Definition matches (a b : nat) (p : cpair) : bool :=
  ((c_left p =? a) && (c_right p =? b)) || ((c_left p =? b) && (c_right p =? a)).
Fixpoint update_requests (a b : nat) (m : Q) (ps : list cpair) (rs : list Q) : res (list Q * bool) :=
  match ps with
  | [] => Ok (rs, false)
  | p :: ps' =>
      if matches a b p then
        match rs with
        | [] => UB
        | _ :: rs' => bind (update_requests a b m ps' rs') (fun '(r, _) => Ok (m :: r, true))
        end
      else match rs with
           | [] => bind (update_requests a b m ps' []) (fun '(r, f) => Ok (r, f))
           | r0 :: rs' => bind (update_requests a b m ps' rs') (fun '(r, f) => Ok (r0 :: r, f))
           end
  end.
Fixpoint between_loop (a b : nat) (m : Q) (vs : list vld) (found : bool) : res (list vld * bool) :=
  match vs with
  | [] => Ok ([], found)
  | Solid x :: r =>
      bind (update_requests a b m (prs x) (rqs x)) (fun '(rs, f) =>
      bind (between_loop a b m r (found || f)) (fun '(r', f') =>
        Ok (Solid {| ja := ja x; jb := jb x; prs := prs x; rqs := rs |} :: r', f')))
  | NoJoint ps rs :: r =>
      bind (update_requests a b m ps rs) (fun '(rs', f) =>
      bind (between_loop a b m r (found || f)) (fun '(r', f') => Ok (NoJoint ps rs' :: r', f')))
  | Other i :: r => bind (between_loop a b m r found) (fun '(r', f') => Ok (Other i :: r', f'))
  end.
Definition set_margin_between (a b : nat) (m : Q) (vs : list vld) : res (list vld) :=
  bind (between_loop a b m vs true) (fun '(vs', found) => if found then Ok vs' else Throw).

(* ---- Initialize::doExecute (63-98) ---- *)
(* collision pairs of the geometric model: objects, parent joints, active flag.
   [joint_map]: validators created so far in order, with the key (joint1,joint2) in
   bodyPairMap.  A validator whose second joint is 0 (universe) gets the first one as
   joint_a, otherwise joint_a is the second one (lines 82-88). *)
Record gpair := { g_left : nat; g_right : nat; j_left : nat; j_right : nat; g_active : bool }.
Fixpoint add_to (key : nat * nat) (p : cpair) (ms : list ((nat * nat) * bpc)) : list ((nat * nat) * bpc) :=
  match ms with
  | [] => [(key, {| ja := if snd key =? 0 then fst key else snd key;
                    jb := if snd key =? 0 then snd key else fst key; prs := [p]; rqs := [0%Q] |})]
  | (k, b) :: r =>
      if (fst k =? fst key) && (snd k =? snd key)
      then (k, {| ja := ja b; jb := jb b; prs := prs b ++ [p]; rqs := rqs b ++ [0%Q] |}) :: r
      else (k, b) :: add_to key p r
  end.
Fixpoint init_loop (gs : list gpair) (ms : list ((nat * nat) * bpc)) : list ((nat * nat) * bpc) :=
  match gs with
  | [] => ms
  | g :: r =>
      if negb (g_active g) then init_loop r ms
      else if j_left g =? j_right g then init_loop r ms
      else init_loop r (add_to (j_left g, j_right g) {| c_left := g_left g; c_right := g_right g |} ms)
  end.
Definition initialize (gs : list gpair) : list vld := map (fun kb => Solid (snd kb)) (init_loop gs []).

(* AddObstacle::doExecute (103-119) and the constructor of SolidSolidCollision
   with objects (solid-solid-collision.cc 275-295): one validator per joint with a
   body, pairing each object of the body with the obstacle.  [joints]: index and
   objects of the joints that have a body. *)
Definition add_obstacle (joints : list (nat * list nat)) (o : nat) (vs : list vld) : list vld :=
  vs ++ map (fun jo => Solid {| ja := fst jo; jb := 0;
                                prs := map (fun x => {| c_left := x; c_right := o |}) (snd jo);
                                rqs := map (fun _ => 0%Q) (snd jo) |}) joints.
