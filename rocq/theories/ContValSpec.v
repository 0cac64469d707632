(* Specification vocabulary for continuous collision checking. *)
From Verif Require Import Base Ext ContValModel.

Section Spec.
Variables ta tb : Q.                       (* parameter range of the path *)
Definition in_range (v : Q) : Prop := (ta <= v)%Q /\ (v <= tb)%Q.

(* [sep i t]: signed separation of the i-th pair of objects at parameter t
   (negative: penetration).  [faithful p sep]: the collision test never
   reports more clearance than there is, and the velocity bound of an interval
   bounds the variation of the separation on that interval and grows with the
   interval. *)
Record faithful (p : pair) (sep : nat -> Q -> Q) : Prop := {
  test_finite : forall i t q, i < p_objs p -> in_range t -> p_coll p i t = Some (Fin q) ->
    (0 <= q)%Q /\ (q <= sep i t)%Q;
  test_infinite : forall i t, i < p_objs p -> in_range t -> p_coll p i t = Some PInf ->
    forall v, in_range v -> (0 <= sep i v)%Q;
  test_not_ninf : forall i t, p_coll p i t <> Some NInf;
  vel_pos : forall x y, (0 <= p_vel p x y)%Q;
  vel_mono : forall x y x' y', ele x' x -> ele y y' -> (p_vel p x y <= p_vel p x' y')%Q;
  vel_bound : forall i x y v w, i < p_objs p -> in_range v -> in_range w -> (v <= w)%Q ->
    ele x (Fin v) -> ele (Fin w) y ->
    (sep i v - sep i w <= p_vel p x y * (w - v))%Q /\ (sep i w - sep i v <= p_vel p x y * (w - v))%Q }.
End Spec.
