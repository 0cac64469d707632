(* Vocabulary of the kPRM* properties. *)
From Verif Require Import Base RoadmapModel RoadmapSpec NearestModel PlannerModel PlannerSpec KprmModel.

Section Spec.
Context {C P : Type}.
Variable dist : C -> C -> Q.
Variable E : env C P.

(* steering, projection and validation give path p from a to b *)
Definition linkable (a b : C) (p : P) : Prop :=
  exists p0, e_sm E a b = Some p0 /\
    match e_proj E with None => p = p0 | Some f => f p0 = (true, Some p) end /\
    fst (e_val E p false) = true.
(* node m leads to node n, or no path can be built between them *)
Definition settled (s : rm C P) (n m : nat) : Prop :=
  arc s m n \/ exists a b, config_of s n a /\ config_of s m b /\ forall p, ~ linkable a b p.
(* out contains K nodes (all of them if there are less than K), no other node
   being nearer to n *)
Definition nearest_set (s : rm C P) (K n : nat) (out : list nat) : Prop :=
  NoDup out /\ (forall m, In m out -> In m (nodes s)) /\ length out = Nat.min K (length (nodes s)) /\
  forall a b qa qb q, In a out -> In b (nodes s) -> ~ In b out ->
    config_of s a qa -> config_of s b qb -> config_of s n q -> (dist qa q <= dist qb q)%Q.
(* n was handled with its nearest neighbours *)
Definition handled (s : rm C P) (K n : nat) : Prop :=
  exists out, nearest_set s K n out /\ forall m, In m out -> m <> n -> settled s n m.

Definition rank (p : phase) : nat := match p with Build => 0 | Link => 1 | Connect => 2 | Failure => 3 end.

Variable ceqb : C -> C -> bool.
Variable prev : P -> P.
Variable sel : list dn -> option (dn * list dn).
Variable valid : C -> option C.
Variables N K maxTry : nat.
(* a step which samples a configuration that is already in the roadmap *)
Definition idle (k k' : kst C P) : bool :=
  match ph k, ph k' with
  | Build, Build => length (nodes (kr k)) =? length (nodes (kr k'))
  | _, _ => false
  end.
(* n steps, i of them idle *)
Inductive exec (k : kst C P) : nat -> nat -> kst C P -> Prop :=
| exec_0 : exec k 0 0 k
| exec_S n i t x u : exec k n i t -> kprm_step C P ceqb dist prev E sel valid N K maxTry t x = Ok u ->
    exec k (S n) (if idle t u then S i else i) u.
End Spec.
