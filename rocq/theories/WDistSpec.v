(* Metrics. *)
From Coq Require Import Reals.
Open Scope R_scope.

Record is_metric {A} (same : A -> A -> Prop) (d : A -> A -> R) : Prop := {
  m_nonneg : forall a b, 0 <= d a b;
  m_sym : forall a b, d a b = d b a;
  m_same : forall a b, same a b -> d a b = 0;
  m_diff : forall a b, d a b = 0 -> same a b;
  m_tri : forall a b c, d a c <= d a b + d b c
}.
(* the same, except that different points may be at distance zero *)
Record is_pseudometric {A} (same : A -> A -> Prop) (d : A -> A -> R) : Prop := {
  p_nonneg : forall a b, 0 <= d a b;
  p_sym : forall a b, d a b = d b a;
  p_same : forall a b, same a b -> d a b = 0;
  p_tri : forall a b c, d a c <= d a b + d b c
}.
