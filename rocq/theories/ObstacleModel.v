(* Model of class ObstacleUser (include/hpp/core/obstacle-user.hh,
   src/obstacle-user.cc) and of CollisionValidation
   (src/collision-validation.cc): three pairs of parallel vectors of collision
   pairs and collision requests. *)
From Verif Require Import Base RelMotionModel.

(* hpp::pinocchio::CollisionObject seen from here: the address of the
   geometry object, the index of its joint (0 for the universe), its name.
   Names are numbers. *)
Record object := { o_id : nat; o_joint : nat; o_name : nat }.
(* CollisionPair_t: first, second *)
Definition pair := (object * object)%type.
(* coal::CollisionRequest: the security margin (in some unit) and the other
   fields as one opaque value *)
Record request := { r_margin : nat; r_other : nat }.
Definition with_margin (r : request) (m : nat) : request := {| r_margin := m; r_other := r_other r |}.

(* A joint: inner objects of linkedBody() (None: null pointer) and children *)
Inductive joint := Joint (body : option (list object)) (children : list joint).
Definition jbody (j : joint) : option (list object) := let (b, _) := j in b.
Definition jchildren (j : joint) : list joint := let (_, c) := j in c.

(* obstacle-user.hh:269-277 members *)
Record user := {
  cP : list pair; pP : list pair; dP : list pair;
  cR : list request; pR : list request; dR : list request;
  dflt : request }.
Definition set_c (u : user) (p : list pair) (r : list request) : user :=
  {| cP := p; pP := pP u; dP := dP u; cR := r; pR := pR u; dR := dR u; dflt := dflt u |}.
Definition set_p (u : user) (p : list pair) (r : list request) : user :=
  {| cP := cP u; pP := p; dP := dP u; cR := cR u; pR := r; dR := dR u; dflt := dflt u |}.
Definition set_d (u : user) (p : list pair) (r : list request) : user :=
  {| cP := cP u; pP := pP u; dP := p; cR := cR u; pR := pR u; dR := r; dflt := dflt u |}.
Definition set_dflt (u : user) (r : request) : user :=
  {| cP := cP u; pP := pP u; dP := dP u; cR := cR u; pR := pR u; dR := dR u; dflt := r |}.

(* constructor, obstacle-user.hh:251-254 *)
Definition create (r : request) : user :=
  {| cP := []; pP := []; dP := []; cR := []; pR := []; dR := []; dflt := r |}.

(* push_back on both vectors *)
Definition push_active (u : user) (p : pair) : user := set_c u (cP u ++ [p]) (cR u ++ [dflt u]).

(* addObstacleToJoint, obstacle-user.cc:60-76 *)
Fixpoint addObstacleToJoint (u : user) (o : object) (j : joint) (includeChildren : bool) {struct j} : user :=
  match j with
  | Joint body children =>
    let u1 := match body with
              | Some inner => fold_left (fun u i => push_active u (i, o)) inner u
              | None => u
              end in
    if includeChildren
    then (fix loop (l : list joint) (u : user) {struct l} : user :=
            match l with [] => u | c :: r => loop r (addObstacleToJoint u o c includeChildren) end) children u1
    else u1
  end.

(* addObstacle, obstacle-user.cc:53-58; [robot] lists jointAt(0), jointAt(1), ... *)
Definition addObstacle (robot : list joint) (u : user) (o : object) : user :=
  fold_left (fun u j => addObstacleToJoint u o j false) robot u.

(* addRobotCollisionPairs, obstacle-user.cc:222-235; the collision pairs of the
   geometric model with their activity flags *)
Definition addRobotCollisionPairs (u : user) (model : list (pair * bool)) : user :=
  fold_left (fun u e => if snd e : bool then push_active u (fst e) else u) model u.

(* vector::erase(begin() + i) *)
Definition erase_at {A} (i : nat) (l : list A) : list A := firstn i l ++ skipn (S i) l.

(* CollisionPairComparision, obstacle-user.cc:78-85 *)
Definition same_pair (a b : pair) : bool :=
  (o_id (fst a) =? o_id (fst b)) && (o_id (snd a) =? o_id (snd b)).

(* inner loop of removeObstacleFromJoint, obstacle-user.cc:95-102: erases
   matching pairs and counts them.  cRequests_.erase past the end is UB.
   Every turn either erases or increments i: length of cPairs_ turns. *)
Fixpoint erase_loop (turns i : nat) (u : user) (p : pair) (nb : nat) : res (user * nat) :=
  match turns with
  | 0 => if i <? length (cP u) then Fuel else Ok (u, nb)
  | S k =>
    match nth_error (cP u) i with
    | None => Ok (u, nb)
    | Some q =>
      if same_pair p q then
        if i <? length (cR u)
        then erase_loop k i (set_c u (erase_at i (cP u)) (erase_at i (cR u))) p (S nb)
        else UB
      else erase_loop k (S i) u p nb
    end
  end.

(* removeObstacleFromJoint, obstacle-user.cc:87-118.  The boolean tells that
   an exception was thrown; the state is the one left behind. *)
Fixpoint remove_inner (inner : list object) (obstacle : object) (u : user) : res (user * bool) :=
  match inner with
  | [] => Ok (u, false)
  | o :: r =>
    bind (erase_loop (length (cP u)) 0 u (o, obstacle) 0) (fun un =>
      let (u', nb) := un in
      if nb =? 0 then Ok (u', true) else remove_inner r obstacle u')
  end.
Definition removeObstacleFromJoint (u : user) (j : joint) (obstacle : object) : res (user * bool) :=
  match jbody j with
  | None => Ok (u, false)
  | Some inner => remove_inner inner obstacle u
  end.

(* filterCollisionPairs, obstacle-user.cc:120-164.  The matrix has n rows and
   columns; reading outside is UB.  Collision test of line 142 only logs. *)
Fixpoint filter_loop (n : nat) (m : matrix) (turns i : nat) (u : user) : res user :=
  match turns with
  | 0 => if i <? length (cP u) then Fuel else Ok u
  | S k =>
    match nth_error (cP u) i with
    | None => Ok u
    | Some p =>
      let j1 := o_joint (fst p) in let j2 := o_joint (snd p) in
      if (j1 <? n) && (j2 <? n) then
        match m j1 j2 with
        | Parameterized =>
          match nth_error (cR u) i with
          | None => UB
          | Some r => let u1 := set_p u (pP u ++ [p]) (pR u ++ [r]) in
                      filter_loop n m k i (set_c u1 (erase_at i (cP u1)) (erase_at i (cR u1)))
          end
        | Constrained =>
          match nth_error (cR u) i with
          | None => UB
          | Some r => let u1 := set_d u (dP u ++ [p]) (dR u ++ [r]) in
                      filter_loop n m k i (set_c u1 (erase_at i (cP u1)) (erase_at i (cR u1)))
          end
        | Unconstrained => filter_loop n m k (S i) u
        end
      else UB
    end
  end.
Definition filterCollisionPairs (n : nat) (m : matrix) (u : user) : res user :=
  filter_loop n m (length (cP u)) 0 u.

(* requests[i] = v *)
Fixpoint set_at {A} (i : nat) (v : A) (l : list A) : list A :=
  match l, i with
  | [], _ => []
  | _ :: r, 0 => v :: r
  | x :: r, S k => x :: set_at k v r
  end.

(* one loop of setSecurityMargins, obstacle-user.cc:178-195 *)
Fixpoint margins_loop (n : nat) (sm : nat -> nat -> nat) (i : nat) (ps : list pair) (rs : list request)
  : res (list request) :=
  match ps with
  | [] => Ok rs
  | p :: ps' =>
    let j1 := o_joint (fst p) in let j2 := o_joint (snd p) in
    match nth_error rs i with
    | None => UB
    | Some r => if (j1 <? n) && (j2 <? n)
                then margins_loop n sm (S i) ps' (set_at i (with_margin r (sm j1 j2)) rs)
                else UB
    end
  end.
(* setSecurityMargins, obstacle-user.cc:166-196; [nbJoints] of the robot *)
Definition setSecurityMargins (nbJoints rows cols : nat) (sm : nat -> nat -> nat) (u : user) : res user :=
  if negb (rows =? S nbJoints) || negb (cols =? S nbJoints) then Throw
  else
    bind (margins_loop rows sm 0 (cP u) (cR u)) (fun cr =>
    bind (margins_loop rows sm 0 (pP u) (pR u)) (fun pr =>
    bind (margins_loop rows sm 0 (dP u) (dR u)) (fun dr =>
    Ok (set_d (set_p (set_c u (cP u) cr) (pP u) pr) (dP u) dr)))).

(* lambda setMargin, obstacle-user.cc:201-212 *)
Definition name_match (a b : nat) (p : pair) : bool :=
  ((o_name (fst p) =? a) && (o_name (snd p) =? b)) || ((o_name (fst p) =? b) && (o_name (snd p) =? a)).
Fixpoint setMargin (a b margin : nat) (i : nat) (ps : list pair) (rs : list request) : res (list request * bool) :=
  match ps with
  | [] => Ok (rs, false)
  | p :: ps' =>
    if name_match a b p then
      match nth_error rs i with
      | None => UB
      | Some r => Ok (set_at i (with_margin r margin) rs, true)
      end
    else setMargin a b margin (S i) ps' rs
  end.
(* setSecurityMarginBetweenBodies, obstacle-user.cc:198-220 *)
Definition setSecurityMarginBetweenBodies (a b margin : nat) (u : user) : res user :=
  bind (setMargin a b margin 0 (cP u) (cR u)) (fun rc =>
  if snd rc then Ok (set_c u (cP u) (fst rc)) else
  bind (setMargin a b margin 0 (pP u) (pR u)) (fun rp =>
  if snd rp then Ok (set_p u (pP u) (fst rp)) else
  bind (setMargin a b margin 0 (dP u) (dR u)) (fun rd =>
  if snd rd then Ok (set_d u (dP u) (fst rd)) else Throw))).

(* setRequests, obstacle-user.cc:237-241 *)
Definition setRequests (r : request) (u : user) : user :=
  set_d (set_p (set_c u (cP u) (map (fun _ => r) (cR u))) (pP u) (map (fun _ => r) (pR u)))
        (dP u) (map (fun _ => r) (dR u)).

(* ObstacleUser::collide, obstacle-user.cc:42-51.  [hit p r] : the geometric
   test of the pair returns contacts, at the current configuration.  The index
   of the first colliding pair. *)
Fixpoint collide (hit : pair -> request -> bool) (i : nat) (ps : list pair) (rs : list request)
  : res (option nat) :=
  match ps with
  | [] => Ok None
  | p :: ps' =>
    match nth_error rs i with
    | None => UB
    | Some r => if hit p r then Ok (Some i) else collide hit (S i) ps' rs
    end
  end.

(* loop on the remaining pairs, collision-validation.cc:76-84 *)
Fixpoint all_from (hit : pair -> request -> bool) (i : nat) (ps : list pair) (rs : list request) : res (list pair) :=
  match ps with
  | [] => Ok []
  | p :: ps' =>
    match nth_error rs i with
    | None => UB
    | Some r => bind (all_from hit (S i) ps' rs) (fun l => Ok (if hit p r then p :: l else l))
    end
  end.

(* CollisionValidation::validate, collision-validation.cc:47-94: [None] when
   valid, else the list of reported pairs. *)
Definition validate (hit : pair -> request -> bool) (checkParameterized computeAllContacts : bool) (u : user)
  : res (option (list pair)) :=
  bind (collide hit 0 (cP u) (cR u)) (fun c =>
  bind (match c with
        | Some i => Ok (Some (i, cP u, cR u))
        | None => if checkParameterized
                  then bind (collide hit 0 (pP u) (pR u)) (fun p =>
                         Ok (match p with Some i => Some (i, pP u, pR u) | None => None end))
                  else Ok None
        end) (fun found =>
  match found with
  | None => Ok None
  | Some (i, ps, rs) =>
    match nth_error ps i with
    | None => UB
    | Some p =>
      if computeAllContacts
      then bind (all_from hit (S i) (skipn (S i) ps) rs) (fun l => Ok (Some (p :: l)))
      else Ok (Some [p])
    end
  end)).
