(* Property theorems for the partial shortcut optimizer (C31). *)
From Coq Require Import Lia Reals Lra.
From Verif Require Import Base VecSpec PartialCutModel PartialCutProofs PartialCutReal.

(* When the evaluations of the path succeed, the optimizer terminates within the
   number of consecutive failures allowed per joint, and returns either its
   input or a vector with the same ends that path validation accepted: whatever
   the steering method, the validation, the joints, the numbers and the draws
   are. *)
Theorem C31_sound_partial : forall C P J T tzero tadd tsub tmul tdiv tltb (init fin : P -> C) rng cons dist steer valid mix
    veval vcut junk draw margin onlyFull fuel nf (js : list J) p0 (rest : list P) q q',
  (forall a b ps, steer a b = Some ps -> ps <> [] /\ chained init fin a ps b) ->
  (forall l (t : T), veval l t <> None) ->
  cons p0 <> None -> chained init fin q (p0 :: rest) q' -> (length js * nf <= fuel)%nat ->
  exists r, partial_optimize C P J T tzero tadd tsub tmul tdiv tltb init fin rng cons dist steer valid mix
      veval vcut junk draw margin onlyFull fuel nf js (p0 :: rest) = Ok r /\
    r <> [] /\ chained init fin q r q' /\ (r = p0 :: rest \/ valid r = true).
Proof.
  intros C P J T tzero tadd tsub tmul tdiv tltb init fin rng cons dist steer valid mix
    veval vcut junk draw margin onlyFull fuel nf js p0 rest q q' ST EV NC CH F.
  destruct (partial_full tzero tadd tsub tmul tdiv tltb init fin rng cons dist steer valid mix ST
    veval vcut junk draw margin onlyFull fuel nf js p0 rest q q' EV NC CH F) as (r & out & E & E' & N & K & D).
  exists r. auto.
Qed.
(* On straight paths without constraints, with the weighted Euclidean distance,
   run at unit speed from time 0, it is not longer than the input. *)
Theorem C31_shorter_partial : forall n w valid mul veval vcut junk draw margin onlyFull fuel nf js p0 rest q q' r,
  (forall k, (k < n)%nat -> 0 <= w k)%R ->
  (forall l t, veval l t <> None) ->
  chained g_init g_fin q (p0 :: rest) q' -> (length js * nf <= fuel)%nat ->
  unit_speed n w (p0 :: rest) -> starts_at_0 (p0 :: rest) ->
  partial_optimize (nat -> R) seg (nat -> bool) R 0%R Rplus Rminus mul Rdiv rltb g_init g_fin g_rng gcons (edist n w)
      (gsteer n w) valid gmix veval vcut junk draw margin onlyFull fuel nf js (p0 :: rest) = Ok r ->
  (path_length (nat -> R) seg R 0 Rplus g_init g_fin (edist n w) r <=
   path_length (nat -> R) seg R 0 Rplus g_init g_fin (edist n w) (p0 :: rest))%R.
Proof.
  intros n w valid mul veval vcut junk draw margin onlyFull fuel nf js p0 rest q q' r W EV CH F US S0 E.
  destruct (partial_full 0%R Rplus Rminus mul Rdiv rltb g_init g_fin g_rng gcons (edist n w) (gsteer n w) valid gmix
    (gsteer_joins n w) veval vcut junk draw margin onlyFull fuel nf js p0 rest q q' EV ltac:(discriminate) CH F)
    as (r' & out & E1 & E2 & N & K & D).
  rewrite E in E1. injection E1 as <-. rewrite !path_length_elen.
  exact (full_shorter n w W valid q q' js (p0 :: rest) r out ltac:(discriminate) US S0 CH E2).
Qed.
(* The random part returns its input: it goes on only when an evaluation fails. *)
Theorem C31_random_idle : forall C P J T tzero tadd tsub tmul tdiv tltb (init fin : P -> C) rng cons dist steer valid mix
    veval vcut junk draw margin q0 q3 (js : list J) (pv : list P) nf fuel,
  (forall t : T, veval pv t <> None) -> (length js * nf <= fuel)%nat ->
  random_opt C P J T tzero tadd tsub tmul tdiv tltb init fin rng cons dist steer valid mix veval vcut junk draw margin
    fuel nf q0 q3 pv js = Ok pv.
Proof. intros. apply random_idle; assumption. Qed.

(* ------------------------------------------------------------------ *)
(* straight paths in the plane: two steps of 5, run at unit speed; the joint is
   the second coordinate *)
Definition pt (x y : R) : nat -> R := fun k => match k with O => x | 1%nat => y | _ => 0%R end.
Definition w2 : nat -> R := fun _ => 1%R.
Definition up : seg := mkSeg (pt 0 0) (pt 3 4) (0, 5)%R.
Definition down : seg := mkSeg (pt 3 4) (pt 6 0) (0, 5)%R.
Lemma edist_5 a b : ((b 0%nat - a 0%nat) * (b 0%nat - a 0%nat) + (b 1%nat - a 1%nat) * (b 1%nat - a 1%nat) = 25)%R ->
  edist 2 w2 a b = 5%R.
Proof.
  intros E. unfold edist, ip, vsub, w2, sumf.
  match goal with |- sqrt ?x = _ => replace x with (5 * 5)%R by (rewrite <- (Rplus_0_l (5 * 5)); lra) end.
  apply sqrt_square. lra.
Qed.
Example C31_shorter_partial_ex :
  unit_speed 2 w2 [up; down] /\ starts_at_0 [up; down] /\ chained g_init g_fin (pt 0 0) [up; down] (pt 6 0).
Proof.
  split; [|split; [reflexivity|cbn; auto]].
  repeat constructor; unfold len; cbn [g_rng fst snd g_init g_fin up down]; rewrite edist_5; cbn [pt]; lra.
Qed.

(* ------------------------------------------------------------------ *)
(* paths on a line with rational parameters: the joint is the whole
   configuration *)
From Verif Require Import QcTac.
Open Scope Qc_scope.
Definition qi (z : Z) : Qc := Q2Qc (inject_Z z).
Record qseg := mkQ { l_init : Qc; l_fin : Qc; l_rng : Qc * Qc }.
Definition qabs (x : Qc) : Qc := if qleb 0 x then x else - x.
Definition l_dist (a b : Qc) : Qc := qabs (b - a).
Definition l_steer (a b : Qc) : option (list qseg) := Some [mkQ a b (0, l_dist a b)].
Definition l_cons (p : qseg) : option (Qc -> option Qc) := Some (fun q => Some q).
Definition l_mix (j : unit) (q1 q2 u q : Qc) : Qc := q1 + u * (q2 - q1).
Definition l_length := path_length Qc qseg Qc 0 Qcplus l_init l_fin l_dist.
Definition l_opt valid veval vcut junk draw margin :=
  partial_optimize Qc qseg unit Qc 0 Qcplus Qcminus Qcmult Qcdiv qltb l_init l_fin l_rng l_cons l_dist l_steer valid l_mix
    veval vcut junk draw margin.
Definition l_eval (l : list qseg) (t : Qc) : option Qc := Some t.
Definition l_cut (l : list qseg) (a b : Qc) : res (list qseg) := Ok [mkQ a b (0, b - a)].
Definition l_junk (k : nat) : Qc := qi 100.
Definition l_draw (k : nat) : Qc * Qc := (0, 0).
(* from 0 to 3 and back to 1, straightened *)
Definition back : list qseg := [mkQ 0 (qi 3) (0, qi 3); mkQ (qi 3) (qi 1) (0, qi 2)].
Example C31_sound_partial_ex : exists r,
  l_opt (fun _ => true) l_eval l_cut l_junk l_draw 0 false 5 5 [tt] back = Ok r /\
  length r = 2%nat /\ qltb (l_length r) (l_length back) = true.
Proof. eexists. split; [vm_compute; reflexivity|]. split; vm_compute; reflexivity. Qed.
Example C31_random_idle_ex : (forall t, l_eval back t <> None) /\ (length [tt] * 5 <= 5)%nat.
Proof. split; [discriminate|cbn; lia]. Qed.

(* A valid, straight, unit speed path whose first sub-path does not start at
   time 0 is lengthened, with no constraint, and with every evaluation and every
   validation successful: the local parameter of rankAtParam, which includes
   the beginning of the time interval, is used as an elapsed time. *)
Definition late : list qseg := [mkQ 0 (qi 1) (qi 10, qi 11); mkQ (qi 1) (qi 2) (0, qi 1)].
Theorem C31_lengthens_refuted : exists r,
  l_opt (fun _ => true) l_eval l_cut l_junk l_draw 0 true 0 0 [tt] late = Ok r /\
  chained l_init l_fin 0 late (qi 2) /\
  Forall (fun p => snd (l_rng p) - fst (l_rng p) = l_dist (l_init p) (l_fin p)) late /\
  l_length late = qi 2 /\ l_length r = qi 20.
Proof.
  eexists. split; [vm_compute; reflexivity|]. split; [cbn; auto|].
  split; [repeat constructor; apply Qc_is_canon; vm_compute; reflexivity|].
  split; apply Qc_is_canon; vm_compute; reflexivity.
Qed.

(* If an evaluation fails, the random part goes on with what the failed
   evaluation wrote, and returns the last candidate even though it has just
   been refused because it is longer. *)
Definition line3 : list qseg := [mkQ 0 (qi 1) (0, qi 1); mkQ (qi 1) (qi 2) (0, qi 1); mkQ (qi 2) (qi 3) (0, qi 1)].
Definition half : Qc := Q2Qc (1 # 2).
Definition f_eval (l : list qseg) (t : Qc) : option Qc := if qeqb t (qi 1 + half) then None else Some t.
Definition f_cut (l : list qseg) (a b : Qc) : res (list qseg) :=
  if qeqb a (qi 1 + half) || qeqb b (qi 1 + half) then Throw else l_cut l a b.
Definition f_valid (l : list qseg) : bool := match l with [] => true | p :: _ => negb (qeqb (l_init p) 0) end.
Definition f_draw (k : nat) : Qc * Qc := (half, half * (qi 1 / qi 3)).
Theorem C31_failed_evaluation_refuted : exists r,
  l_opt f_valid f_eval f_cut l_junk f_draw 0 false 5 1 [tt] line3 = Ok r /\
  chained l_init l_fin 0 line3 (qi 3) /\ qltb (l_length line3) (l_length r) = true.
Proof. eexists. split; [vm_compute; reflexivity|]. split; [cbn; auto|vm_compute; reflexivity]. Qed.
(* If it is the first one, the second configuration is read uninitialized. *)
Theorem C31_uninitialized_refuted :
  l_opt f_valid f_eval f_cut l_junk (fun _ => (half, half)) 0 false 5 1 [tt] line3 = UB.
Proof. vm_compute. reflexivity. Qed.
(* An input without constraint set makes the optimizer dereference a null
   pointer. *)
Theorem C31_null_constraints_refuted : forall C P J T tzero tadd tsub tmul tdiv tltb (init fin : P -> C) rng cons dist steer
    valid mix veval vcut junk draw (margin : T) onlyFull fuel nf (js : list J) p0 (rest : list P),
  cons p0 = None ->
  partial_optimize C P J T tzero tadd tsub tmul tdiv tltb init fin rng cons dist steer valid mix
    veval vcut junk draw margin onlyFull fuel nf js (p0 :: rest) = UB.
Proof. intros. unfold partial_optimize. rewrite H. reflexivity. Qed.

Print Assumptions C31_sound_partial.
Print Assumptions C31_shorter_partial.
Print Assumptions C31_random_idle.
Print Assumptions C31_lengthens_refuted.
Print Assumptions C31_failed_evaluation_refuted.
Print Assumptions C31_uninitialized_refuted.
Print Assumptions C31_null_constraints_refuted.
