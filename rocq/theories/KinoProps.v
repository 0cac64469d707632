(* C43: extraction of kinodynamic paths; C44: duration common to all axes. *)
From Coq Require Import Reals List Lra Lia.
From Verif Require Import Base XReal KinoModel KinoSpec PolyProofs KinoProofs KinoProofs2.
Import ListNotations.
Open Scope R_scope.

(* The extracted path lasts b - a, describes a well formed motion again, has at
   every local time t the positions, velocities and other coordinates of the
   original at a + t, and the same accelerations inside. *)
Theorem C43_extract_keeps_motion p a b : path_ok p -> 0 <= a -> a <= b -> b <= klen p ->
  out_len p (kextract p a b) = b - a /\
  (forall r, kextract p a b = New r -> path_ok r) /\
  forall t, 0 <= t <= b - a ->
    exists q, out_at p (kextract p a b) t = Ok q /\ same_motion q (kcompute p (a + t)) /\
      (0 < t < b - a -> map ac_ (trans q) = map ac_ (trans (kcompute p (a + t)))).
Proof. exact (extract_ok p a b). Qed.

(* Along a well formed path each axis follows a motion: the coded velocity is
   the derivative of the coded position, the acceleration is bounded by the one
   of the path and the end states are reached. *)
Theorem C43_path_is_a_motion p k x V : path_ok p -> nth_error (axes p) k = Some x ->
  Rabs (v_ (si x)) <= V -> Rabs (v_ (se x)) <= V -> Rabs (v_ (si x) + a1 x * t1 x) <= V ->
  motion (Rabs (a1 x)) V (klen p) (x_ (si x)) (v_ (si x)) (x_ (se x)) (v_ (se x))
    (fun t => nth k (map x_ (trans (kcompute p t))) 0) (fun t => nth k (map v_ (trans (kcompute p t))) 0).
Proof.
  intros [HL Hx] Hk B1 B2 B3. assert (axis_ok (klen p) x) as Hok.
  { rewrite Forall_forall in Hx. apply Hx. eapply nth_error_In. exact Hk. }
  eapply motion_ext; [|apply (axis_motion (klen p) x V Hok B1 B2 B3)].
  intros t Ht. rewrite trans_compute, !map_map. destruct (state_at_ok p t x Hok Ht) as [E1 E2].
  split.
  - cbn beta. rewrite <- E1. apply nth_error_nth. rewrite nth_error_map, Hk. reflexivity.
  - cbn beta. rewrite <- E2. apply nth_error_nth. rewrite nth_error_map, Hk. reflexivity.
Qed.

(* A path with four phases, and its part [1/2, 3]. *)
Definition demo_axis : axis := mkAxis (mkSt 0 0 0) (mkSt 3 0 0) 1 (1/2) 1 2 1 1.
Definition demo : kpath := mkK (9/2) [demo_axis] [(0, 9)].
Example demo_ok : path_ok demo.
Proof.
  split; [cbn; lra|]. constructor; [|constructor]. constructor; cbn; try lra.
Qed.
Example demo_extract : exists r q, kextract demo (1/2) 3 = New r /\ klen r = 5/2 /\
  kcompute demo 2 = q /\ map x_ (trans q) = [1] /\ map v_ (trans q) = [1].
Proof.
  unfold kextract. cbn [demo klen].
  destruct (reqb_spec (1/2) 0); [exfalso; lra|]. cbn [andb].
  rewrite Rabs_right by lra. destruct (rleb_spec (3 - 1/2) 0); [exfalso; lra|].
  destruct (rltb_spec 3 (1/2)); [exfalso; lra|].
  eexists. eexists. split; [reflexivity|]. split; [cbn; lra|]. split; [reflexivity|].
  unfold kcompute. cbn [klen demo axes others].
  destruct (reqb_spec 2 0); [exfalso; lra|]. destruct (reqb_spec (9/2) 0); [exfalso; lra|].
  destruct (reqb_spec 2 (9/2)); [exfalso; lra|]. cbn [orb].
  unfold axis_at. cbn. kcase; try (exfalso; lra). cbn. split; f_equal; lra.
Qed.

(* Full claim, refuted for a path that ends at rest before its last instant, as
   the steering method makes for the vertical axis when it is not synchronised:
   the rest is not counted when the end is cut off. *)
Definition resting_axis : axis := mkAxis (mkSt 0 1 0) (mkSt (1/2) 0 0) (-1) 0 1 0 0 0.
Definition resting : kpath := mkK 2 [resting_axis] [].
Theorem C43_rest_at_end_refuted : exists r,
  kextract resting 0 (3/2) = New r /\
  map x_ (trans (kcompute resting (3/4))) = [15/32] /\ map x_ (trans (kcompute r (3/4))) = [1/2].
Proof.
  assert (axis_at resting_axis (3/2) = mkSt (1/2) 0 0) as E32.
  { unfold axis_at, resting_axis. cbn. kcase; try (exfalso; lra). reflexivity. }
  unfold kextract. cbn [resting klen].
  destruct (reqb_spec (3/2) 2); [exfalso; lra|]. rewrite Bool.andb_false_r.
  rewrite Rabs_right by lra. destruct (rleb_spec (3/2 - 0) 0); [exfalso; lra|].
  destruct (rltb_spec (3/2) 0); [exfalso; lra|].
  eexists. split; [reflexivity|]. unfold kcompute. cbn [klen resting axes others].
  destruct (reqb_spec 0 0); [|exfalso; lra]. cbn [orb kinit kend axes map si trans resting resting_axis].
  destruct (reqb_spec (3/4) 0); [exfalso; lra|]. destruct (reqb_spec 2 0); [exfalso; lra|].
  destruct (reqb_spec (3/4) 2); [exfalso; lra|]. destruct (reqb_spec (3/2) 0); [exfalso; lra|].
  destruct (reqb_spec (3/2) 2); [exfalso; lra|]. destruct (reqb_spec (3/2 - 0) 0); [exfalso; lra|].
  destruct (reqb_spec (3/4) (3/2 - 0)); [exfalso; lra|].
  cbn [orb trans map extract_axes]. unfold resting_axis in E32 |- *. rewrite E32. split.
  - unfold axis_at. cbn. kcase; try (exfalso; lra). cbn. f_equal. lra.
  - unfold axis_extract, trim_front, trim_back. cbn [t0 t1 tv t2 a1 vlim].
    kcase; try (exfalso; lra). unfold axis_at. cbn. kcase; try (exfalso; lra). reflexivity.
Qed.

(* Oriented paths: any interval that is not empty gives the extracted motion. *)
Theorem C43_oriented_extract_partial p a b : path_ok p -> 0 <= a -> a < b -> b <= klen p ->
  out_len p (oriented_extract p a b) = b - a /\
  forall t, 0 <= t <= b - a -> out_at p (oriented_extract p a b) t = out_at p (kextract p a b) t /\ out_at p (oriented_extract p a b) t <> UB.
Proof.
  intros Hp Ha Hab Hb. assert (oriented_extract p a b = kextract p a b) as E.
  { unfold oriented_extract. destruct (kextract p a b) as [|q|r|] eqn:E; try reflexivity. exfalso. unfold kextract in E.
    destruct (_ && _)%bool; [discriminate|]. rewrite Rabs_right in E by lra.
    destruct (rleb_spec (b - a) 0); [lra|]. destruct (rltb_spec b a); discriminate. }
  rewrite E. destruct (extract_ok p a b Hp Ha ltac:(lra) Hb) as (L & _ & M). split; [exact L|].
  intros t Ht. split; [reflexivity|]. destruct (M t Ht) as (q & -> & _). discriminate.
Qed.

(* Extracting an empty interval of an oriented path gives a null pointer. *)
Theorem C43_oriented_empty_refuted p a : 0 < a -> oriented_extract p a a = Null.
Proof.
  intros Ha. unfold oriented_extract, kextract. destruct (reqb_spec a 0); [exfalso; lra|]. cbn [andb].
  rewrite Rminus_diag_eq, Rabs_R0 by reflexivity. destruct (rleb_spec 0 0); [reflexivity|exfalso; lra].
Qed.

(* computeMaxRequiredTime, for any list of intervals (bounds may be infinite or
   NaN) and any Tmax that is a number: terminates with the smallest duration
   that is at least Tmax and strictly inside no interval.  At most one iteration
   per interval and one more. *)
Theorem C44_smallest_feasible_duration l Tmax f : Tmax <> NaN -> (length l < f)%nat ->
  exists T, max_required_time f l Tmax = Ok T /\ xle Tmax T /\ (forall i, In i l -> ~ inside T i) /\
    forall t, xle Tmax t -> (forall i, In i l -> ~ inside t i) -> xle T t.
Proof.
  intros HT Hf. apply max_required_ok; [exact HT|].
  eapply Nat.le_lt_trans; [|exact Hf]. clear. induction l as [|i l IH]; cbn; [lia|]. destruct (above Tmax i); cbn; lia.
Qed.

(* Three chained intervals: 1 is inside the first, its end inside the second. *)
Example C44_example : exists T, max_required_time 4 [(Fin 0, Fin 2); (Fin 1, Fin 3); (PInf, Fin 0)] (Fin 1) = Ok T /\ T = Fin 3.
Proof.
  eexists. split; [|reflexivity]. unfold max_required_time, interval_loop, belong. cbn.
  repeat (match goal with |- context [rltb ?a ?b] => destruct (rltb_spec a b); try (exfalso; lra) end; cbn).
  reflexivity.
Qed.

Print Assumptions C43_extract_keeps_motion.
Print Assumptions C43_path_is_a_motion.
Print Assumptions C43_oriented_extract_partial.
Print Assumptions C43_rest_at_end_refuted.
Print Assumptions C43_oriented_empty_refuted.
Print Assumptions C44_smallest_feasible_duration.
