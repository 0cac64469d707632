(* Specification: the ledger of an obstacle user.  One entry per pair ever
   added and not removed, in order of addition, with its request and its
   class.  Written without reference to the three pairs of vectors. *)
From Coq Require Import Permutation.
From Verif Require Import Base RelMotionModel ObstacleModel.

Inductive cls := Active | Param | Disabled.
Definition cls_eqb (a b : cls) : bool :=
  match a, b with Active, Active => true | Param, Param => true | Disabled, Disabled => true | _, _ => false end.
Record entry := { e_pair : pair; e_req : request; e_cls : cls }.
Definition ledger := list entry.

(* objects of a joint, of the joint and all its descendants, of the robot *)
Definition own_objects (j : joint) : list object := match jbody j with Some l => l | None => [] end.
Fixpoint all_objects (j : joint) : list object :=
  match j with
  | Joint b c => match b with Some l => l | None => [] end ++ flat_map all_objects c
  end.
Definition robot_objects (robot : list joint) : list object := flat_map own_objects robot.

Definition enter (r : request) (ps : list pair) : ledger :=
  map (fun p => {| e_pair := p; e_req := r; e_cls := Active |}) ps.
(* class a pair must be in, from the relative motion of its joints *)
Definition cls_of (t : rmt) : cls :=
  match t with Constrained => Disabled | Parameterized => Param | Unconstrained => Active end.
Definition e_joints (e : entry) : nat * nat := (o_joint (fst (e_pair e)), o_joint (snd (e_pair e))).
Definition reclass (m : matrix) (e : entry) : entry :=
  match e_cls e with
  | Active => {| e_pair := e_pair e; e_req := e_req e; e_cls := cls_of (m (fst (e_joints e)) (snd (e_joints e))) |}
  | _ => e
  end.
Definition set_margin (v : nat) (e : entry) : entry :=
  {| e_pair := e_pair e; e_req := with_margin (e_req e) v; e_cls := e_cls e |}.
Definition set_request (r : request) (e : entry) : entry :=
  {| e_pair := e_pair e; e_req := r; e_cls := e_cls e |}.
(* the pair is between bodies named a and b *)
Definition between (a b : nat) (e : entry) : Prop :=
  (o_name (fst (e_pair e)) = a /\ o_name (snd (e_pair e)) = b) \/
  (o_name (fst (e_pair e)) = b /\ o_name (snd (e_pair e)) = a).
(* the pair opposes one of the given objects to the obstacle *)
Definition opposes (objs : list object) (obstacle : object) (e : entry) : Prop :=
  (exists o, In o objs /\ o_id o = o_id (fst (e_pair e))) /\ o_id obstacle = o_id (snd (e_pair e)).

(* operations of the interface; the arguments of the last two of addition *)
Inductive op :=
| AddObstacle (o : object)
| AddObstacleToJoint (o : object) (j : joint) (includeChildren : bool)
| AddRobotPairs (model : list (pair * bool))
| FilterPairs (m : matrix)
| SetMargins (rows cols : nat) (sm : nat -> nat -> nat)
| SetMarginBodies (a b margin : nat)
| SetRequests (r : request)
| SetDefault (r : request)
| RemoveFromJoint (j : joint) (o : object).

(* pairs added by an operation *)
Definition added (robot : list joint) (x : op) : list pair :=
  match x with
  | AddObstacle o => map (fun i => (i, o)) (robot_objects robot)
  | AddObstacleToJoint o j c => map (fun i => (i, o)) (if c then all_objects j else own_objects j)
  | AddRobotPairs model => map fst (filter snd model)
  | _ => []
  end.
(* default request after an operation *)
Definition dflt_after (x : op) (d : request) : request :=
  match x with SetDefault r => r | _ => d end.

(* The ledger [L'] after an operation on a robot with [nb] joints, from the
   ledger [L] and the default request [d]; [thrown]: an exception was thrown. *)
Definition keeps (P : entry -> Prop) (L L' : ledger) : Prop :=
  exists f : entry -> bool, (forall e, f e = true <-> P e) /\ L' = filter f L.
Definition cls_rank (c : cls) : nat := match c with Active => 0 | Param => 1 | Disabled => 2 end.
Definition ledger_step (robot : list joint) (nb : nat) (x : op) (d : request) (L L' : ledger) (thrown : bool) : Prop :=
  match x with
  | AddObstacle _ | AddObstacleToJoint _ _ _ | AddRobotPairs _ =>
    thrown = false /\ L' = L ++ enter d (added robot x)
  | FilterPairs m => thrown = false /\ L' = map (reclass m) L
  | SetMargins rows cols sm =>
    (thrown = false /\ rows = S nb /\ cols = S nb /\
       L' = map (fun e => set_margin (sm (fst (e_joints e)) (snd (e_joints e))) e) L) \/
    (thrown = true /\ (rows <> S nb \/ cols <> S nb) /\ L' = L)
  | SetMarginBodies a b v =>
    (* one pair between the two bodies is changed, an active one if there is one *)
    (thrown = false /\ exists l1 e l2, L = l1 ++ e :: l2 /\ between a b e /\
       (forall e', In e' L -> between a b e' -> cls_rank (e_cls e) <= cls_rank (e_cls e')) /\
       L' = l1 ++ set_margin v e :: l2) \/
    (thrown = true /\ (forall e, In e L -> ~ between a b e) /\ L' = L)
  | SetRequests r => thrown = false /\ L' = map (set_request r) L
  | SetDefault _ => thrown = false /\ L' = L
  | RemoveFromJoint j o =>
    (* all and only the active pairs of the joint with the obstacle; or an
       exception when an object of the joint has no active pair with it, after
       the objects before that one were dealt with *)
    (thrown = false /\
       keeps (fun e => ~ (e_cls e = Active /\ opposes (own_objects j) o e)) L L') \/
    (thrown = true /\ exists l1 i l2, own_objects j = l1 ++ i :: l2 /\
       (forall e, In e L' -> ~ (e_cls e = Active /\ opposes [i] o e)) /\
       keeps (fun e => ~ (e_cls e = Active /\ opposes l1 o e)) L L')
  end.
(* a history, its ledger and its default request *)
Inductive ledger_run (robot : list joint) (nb : nat) (d0 : request) : list op -> request -> ledger -> Prop :=
| run_nil : ledger_run robot nb d0 [] d0 []
| run_snoc h d L x L' thrown : ledger_run robot nb d0 h d L -> ledger_step robot nb x d L L' thrown ->
    ledger_run robot nb d0 (h ++ [x]) (dflt_after x d) L'.

(* entries of a class *)
Definition of_class (c : cls) (L : ledger) : list (pair * request) :=
  map (fun e => (e_pair e, e_req e)) (filter (fun e => cls_eqb (e_cls e) c) L).

(* objects are on the robot *)
Definition pair_ok (nb : nat) (p : pair) : Prop := o_joint (fst p) <= nb /\ o_joint (snd p) <= nb.
Definition op_ok (robot : list joint) (nb : nat) (x : op) : Prop := Forall (pair_ok nb) (added robot x).
