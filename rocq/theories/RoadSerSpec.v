(* Graphs of objects: reachability, copies, and connections between nodes. *)
From Verif Require Import Base RoadSerModel.
Open Scope nat_scope.

Section Spec.
Context {Q P D : Type}.
Notation object := (object Q P D).
Notation heap := (nat -> option object).

(* [b] is pointed to by [a] *)
Definition points (h : heap) (a b : nat) : Prop :=
  exists o l, h a = Some o /\ In l (o_ptrs o) /\ In (Some b) l.
Inductive reachable (h : heap) (r : nat) : nat -> Prop :=
| rb_root : reachable h r r
| rb_step a b : reachable h r a -> points h a b -> reachable h r b.

(* the objects of [h2] reached from [r2] are those of [h1] reached from [r1],
   moved by [f] *)
Definition copy_of (f : nat -> nat) (h1 : heap) (r1 : nat) (h2 : heap) (r2 : nat) : Prop :=
  f r1 = r2 /\
  (forall a b, reachable h1 r1 a -> reachable h1 r1 b -> f a = f b -> a = b) /\
  (forall a, reachable h1 r1 a -> exists o, h1 a = Some o /\
     h2 (f a) = Some (mkObj (o_pay o) (map (map (option_map f)) (o_ptrs o)))) /\
  (forall i o, h2 i = Some o -> exists a, reachable h1 r1 a /\ f a = i).

(* all the pointers of the objects of [dom] are to objects of [dom] *)
Definition closed (h : heap) (dom : list nat) : Prop :=
  forall a, In a dom -> exists o, h a = Some o /\
    forall l b, In l (o_ptrs o) -> In (Some b) l -> In b dom.

(* there is an edge from node [a] to node [b] *)
Definition edge_between (h : heap) (a b : nat) : Prop :=
  exists q out_ rest e p n1,
    h a = Some (mkObj (PNode q) (out_ :: rest)) /\ In (Some e) out_ /\
    h e = Some (mkObj (PEdge p) [[n1]; [Some b]]).
Inductive connected (h : heap) : nat -> nat -> Prop :=
| cn_refl a : connected h a a
| cn_step a b c : edge_between h a b -> connected h b c -> connected h a c.
End Spec.
