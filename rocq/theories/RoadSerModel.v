(* Saving and loading roadmaps: src/serialization.cc 53-100 (Node, Edge,
   ConnectedComponent, Roadmap), src/nearest-neighbor/serialization.cc 7-50.

   Nodes, edges and components point to each other.  boost tracks pointers: an
   object is written where it is first met, depth first, and later pointers to
   it are written as references to it, by order of first meeting.

   Simplifications.
   - An object is its values and, for each of its members which hold pointers,
     the list of these pointers (a null pointer is None).  Addresses are
     numbers.
   - The path of an edge, the distance and the nearest neighbor structure are
     values; whether they can be saved is a test (C104 for paths, KDTree is not
     registered).
   - A set is written in its order.  When it is loaded its elements are sorted
     anew (reachableFrom_ and reachableTo_ by address, connectedComponents_ by
     the identifier of the component): the lists below are in the order of the
     archive. *)
From Verif Require Import Base.
Open Scope nat_scope.

Section RoadSer.
Variables Q P D : Type.                        (* configurations, paths, distances *)
Variable path_ok : P -> bool.

Inductive nn := NNBasic | NNKdTree.
(* values saved with an object.  explored_ of a component is false between
   calls and after construction, and is not written *)
Inductive pay :=
| PRoadmap (d : D) (n : nn)
| PNode (q : Q)
| PEdge (p : P)
| PComp.
Record object := mkObj { o_pay : pay; o_ptrs : list (list (option nat)) }.

(* serialization.cc 54-63: outEdges_, inEdges_, connectedComponent_ *)
Definition node_obj (q : Q) (out_ in_ : list nat) (cc : nat) : object :=
  mkObj (PNode q) [map Some out_; map Some in_; [Some cc]].
(* 66-72: n1_, n2_, path_ *)
Definition edge_obj (p : P) (n1 n2 : nat) : object := mkObj (PEdge p) [[Some n1]; [Some n2]].
(* 75-83: nodes_, reachableFrom_, reachableTo_ *)
Definition comp_obj (nodes from to_ : list nat) : object :=
  mkObj PComp [map Some nodes; map Some from; map Some to_].
(* 86-98: connectedComponents_, nodes_, edges_, initNode_, goalNodes_ *)
Definition roadmap_obj (d : D) (n : nn) (ccs nodes edges : list nat) (init : option nat) (goals : list nat) : object :=
  mkObj (PRoadmap d n) [map Some ccs; map Some nodes; map Some edges; [init]; map Some goals].

(* objects of registered classes: nearest-neighbor/serialization.cc 7-8, and
   the paths of C104 *)
Definition pay_ok (p : pay) : bool :=
  match p with
  | PRoadmap _ NNKdTree => false
  | PEdge p => path_ok p
  | _ => true
  end.

Inductive rtok := TNull | TRef (i : nat) | TNew (p : pay) (lens : list nat).

Fixpoint index (a : nat) (l : list nat) : option nat :=
  match l with
  | [] => None
  | x :: r => if Nat.eqb x a then Some 0 else option_map S (index a r)
  end.

(* pointers one after the other, the objects met so far being passed on *)
Definition save_ptrs (save : list nat -> option nat -> res (list nat * list rtok)) :=
  fix go (met : list nat) (ps : list (option nat)) : res (list nat * list rtok) :=
    match ps with
    | [] => Ok (met, [])
    | p :: r => bind (save met p) (fun x => bind (go (fst x) r) (fun y => Ok (fst y, snd x ++ snd y)))
    end.
(* [met]: addresses of the objects already in the archive, in order *)
Fixpoint save_ptr (h : nat -> option object) (fuel : nat) (met : list nat) (p : option nat)
  : res (list nat * list rtok) :=
  match p with
  | None => Ok (met, [TNull])
  | Some a =>
      match index a met with
      | Some i => Ok (met, [TRef i])
      | None =>
          match fuel with
          | 0 => Fuel
          | S k =>
              match h a with
              | None => UB
              | Some o =>
                  if pay_ok (o_pay o) then
                    bind (save_ptrs (save_ptr h k) (met ++ [a]) (concat (o_ptrs o))) (fun x =>
                    Ok (fst x, TNew (o_pay o) (map (@length _) (o_ptrs o)) :: snd x))
                  else Throw
              end
          end
      end
  end.

Fixpoint cut {A} (lens : list nat) (l : list A) : list (list A) :=
  match lens with [] => [] | n :: r => firstn n l :: cut r (skipn n l) end.
Definition set_at {A} (i : nat) (x : A) (l : list A) : list A := firstn i l ++ x :: skipn (S i) l.

Definition load_ptrs (load : list (option object) -> list rtok -> option (list (option object) * option nat * list rtok)) :=
  fix go (n : nat) (t : list (option object)) (ts : list rtok)
    : option (list (option object) * list (option nat) * list rtok) :=
    match n with
    | 0 => Some (t, [], ts)
    | S k => match load t ts with
             | Some (t1, p, r) => match go k t1 r with
                                  | Some (t2, ps, r') => Some (t2, p :: ps, r')
                                  | None => None
                                  end
             | None => None
             end
    end.
(* [t]: the objects created so far, by order of creation; None while the
   members are being read *)
Fixpoint load_ptr (fuel : nat) (t : list (option object)) (ts : list rtok)
  : option (list (option object) * option nat * list rtok) :=
  match ts with
  | TNull :: r => Some (t, None, r)
  | TRef i :: r => if i <? length t then Some (t, Some i, r) else None
  | TNew p lens :: r =>
      match fuel with
      | 0 => None
      | S k =>
          match load_ptrs (load_ptr k) (list_sum lens) (t ++ [None]) r with
          | Some (t1, ps, r') => Some (set_at (length t) (Some (mkObj p (cut lens ps))) t1, Some (length t), r')
          | None => None
          end
      end
  | [] => None
  end.

(* the roadmap at address [root], and the number of the loaded roadmap *)
Definition save_roadmap (h : nat -> option object) (fuel root : nat) : res (list rtok) :=
  bind (save_ptr h fuel [] (Some root)) (fun x => Ok (snd x)).
Definition load_roadmap (fuel : nat) (ts : list rtok) : option ((nat -> option object) * nat) :=
  match load_ptr fuel [] ts with
  | Some (t, Some r, _) => Some (fun i => match nth_error t i with Some o => o | None => None end, r)
  | _ => None
  end.
End RoadSer.
Arguments PRoadmap {Q P D}. Arguments PNode {Q P D}. Arguments PEdge {Q P D}. Arguments PComp {Q P D}.
Arguments mkObj {Q P D}. Arguments o_pay {Q P D}. Arguments o_ptrs {Q P D}.
