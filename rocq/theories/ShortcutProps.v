(* Property theorems for the random shortcut optimizer (C29). *)
From Coq Require Import Lia.
From Verif Require Import Base QcTac PathModel PathSpec PathProps VecModel VecSpec VecProofs VecStraight
  ShortcutModel ShortcutSpec ShortcutProofs.
Open Scope Qc_scope.

(* numbers drawn by rand () / RAND_MAX *)
Definition in_unit (draw : nat -> Qc * Qc) : Prop :=
  forall k, 0 <= fst (draw k) /\ fst (draw k) <= 1 /\ 0 <= snd (draw k) /\ snd (draw k) <= 1.

(* Whatever the draws, the moment of the interruption, the steering method,
   the projector and the validation: the returned vector is contiguous, has
   the ends of the input, is made of pieces of the input and of validated
   shortcuts, and is the input itself or strictly shorter. *)
Theorem C29_shortens : forall C P init fin rng ev cut dist steer valid stop draw (G : P -> Prop) fuel n path (q q' : C) r,
  honest init fin rng ev cut G -> steers init fin steer G -> in_unit draw ->
  Forall G path -> path <> [] -> chained init fin q path q' ->
  optimize C P init fin rng ev cut dist steer valid stop draw fuel n path = Ok r ->
  chained init fin q r q' /\ r <> [] /\
  Forall (piece rng cut steer valid path) r /\
  (r = path \/ cost init fin dist r < cost init fin dist path).
Proof.
  intros C P init fin rng ev cut dist steer valid stop draw G fuel n path q q' r HG HS HD A B D E.
  destruct n as [|m].
  - exfalso. unfold optimize in E. destruct (ends_of _ _ _ _ _ _ _ B D) as (E1 & E2).
    rewrite E1, E2 in E. discriminate.
  - pose proof (optimize_spec C P init fin rng ev cut dist steer valid stop draw G HG HS HD fuel (S m) path q q' A B D ltac:(lia)) as S.
    rewrite E in S. tauto.
Qed.

(* No exception escapes, and no undefined behaviour unless an extraction has one. *)
Theorem C29_safe : forall C P init fin rng ev cut dist steer valid stop draw (G : P -> Prop) fuel n path (q q' : C),
  honest init fin rng ev cut G -> cut_defined rng cut G -> steers init fin steer G -> in_unit draw ->
  Forall G path -> path <> [] -> chained init fin q path q' -> (0 < n)%nat ->
  optimize C P init fin rng ev cut dist steer valid stop draw fuel n path <> Throw /\
  optimize C P init fin rng ev cut dist steer valid stop draw fuel n path <> UB.
Proof.
  intros C P init fin rng ev cut dist steer valid stop draw G fuel n path q q' HG HC HS HD A B D Hn.
  pose proof (optimize_spec C P init fin rng ev cut dist steer valid stop draw G HG HS HD fuel n path q q' A B D Hn) as S.
  destruct (optimize _ _ _ _ _ _ _ _ _ _ _ _ fuel n path); split; try discriminate; auto.
Qed.

(* Even when nothing ever asks it to stop, the optimizer stops after a number
   of iterations that depends only on n and on the ratio between the length of
   the input and the distance between its ends, for a distance that satisfies
   the triangle inequality and when these ends differ. *)
Theorem C29_terminates_partial : forall C P init fin rng ev cut dist steer valid stop draw (G : P -> Prop) n path (q q' : C) J fuel,
  honest init fin rng ev cut G -> cut_defined rng cut G -> steers init fin steer G -> in_unit draw -> metric dist ->
  Forall G path -> path <> [] -> chained init fin q path q' -> (0 < n)%nat -> 0 < dist q q' ->
  ShortcutProofs.qn n * cost init fin dist path <= ShortcutProofs.qn J * (Q2Qc (1 # 10000) * dist q q') ->
  (n + (n * (J + 1) + J) * (n + 1) < fuel)%nat ->
  exists r, optimize C P init fin rng ev cut dist steer valid stop draw fuel n path = Ok r.
Proof. intros. eapply optimize_terminates; eassumption. Qed.

(* interrupted before the first iteration: the input *)
Theorem C29_interrupted : forall C P init fin rng ev cut dist steer valid stop draw fuel n (path : list P) (q q' : C),
  path <> [] -> chained init fin q path q' -> stop 0%nat = true ->
  optimize C P init fin rng ev cut dist steer valid stop draw (S fuel) (S n) path = Ok path.
Proof.
  intros C P init fin rng ev cut dist steer valid stop draw fuel n path q q' A B S. unfold optimize.
  destruct (ends_of _ _ _ _ _ _ _ A B) as (-> & ->). cbn [bind loop]. rewrite S. reflexivity.
Qed.
(* the input is also returned when no shortcut is valid and nothing can be shorter *)
Theorem C29_nothing_valid : forall C P init fin rng ev cut dist steer valid stop draw (G : P -> Prop) fuel n path (q q' : C) r,
  honest init fin rng ev cut G -> steers init fin steer G -> in_unit draw ->
  Forall G path -> path <> [] -> chained init fin q path q' ->
  (forall q q', steer q q' = None) ->
  optimize C P init fin rng ev cut dist steer valid stop draw fuel n path = Ok r -> r = path.
Proof.
  intros C P init fin rng ev cut dist steer valid stop draw G fuel n path q q' r HG HS HD A B D HN E.
  unfold optimize in E. destruct (ends_of _ _ _ _ _ _ _ B D) as (E1 & E2). rewrite E1, E2 in E. clear E1 E2.
  cbn [bind] in E. destruct n as [|m]; [discriminate|].
  assert (L : forall fuel k s s', s_tmp s = path -> s_res s = None ->
    loop C P init fin rng ev cut dist steer valid stop draw fuel (S m) q q' k s = Ok s' -> s_res s' = None).
  { clear E fuel. induction fuel as [|f IH]; intros k s s' Hs Hr E; cbn [loop] in E; [discriminate|].
    destruct (stop k || s_fin s || (s_err s =? 0)%nat); [injection E as <-; exact Hr|].
    destruct (body C P init fin rng ev cut dist steer valid draw (S m) q q' k s) as [s1| | |] eqn:Eb;
      cbn [bind] in E; try discriminate.
    apply (IH (S k) s1 s'); [| |exact E]; clear IH E;
      unfold body in Eb; destruct (shoot draw k 0 _) as [t1 t2];
      (destruct (veval rng ev (s_tmp s) t1) as [[q1|]| | |]; cbn [bind] in Eb; try discriminate;
        [|injection Eb as <-; assumption]);
      (destruct (veval rng ev (s_tmp s) t2) as [[q2|]| | |]; cbn [bind] in Eb; try discriminate;
        [|injection Eb as <-; assumption]);
      rewrite !HN in Eb; injection Eb as <-; assumption. }
  destruct (loop C P init fin rng ev cut dist steer valid stop draw fuel (S m) q q' 0 _) as [s| | |] eqn:El;
    cbn [bind] in E; try discriminate.
  injection E as <-. apply L in El; [rewrite El; reflexivity|reflexivity|reflexivity].
Qed.

(* NumberOfLoops = 0: an exception instead of the input path *)
Theorem C29_zero_loops_refuted : forall C P init fin rng ev cut dist steer valid stop draw fuel (path : list P) (q q' : C),
  path <> [] -> chained init fin q path q' ->
  optimize C P init fin rng ev cut dist steer valid stop draw fuel 0 path = Throw.
Proof.
  intros C P init fin rng ev cut dist steer valid stop draw fuel path q q' A B. unfold optimize.
  destruct (ends_of _ _ _ _ _ _ _ A B) as (-> & ->). reflexivity.
Qed.

(* The same without any hypothesis on oracles: straight paths, straight
   steering method, any validation. *)
Theorem C29_straight : forall conf interp (dist : conf -> conf -> Qc) valid stop draw fuel n path q q' r,
  geodesic interp -> (forall a b, 0 <= dist a b) -> (forall a b, dist a b = 0 -> a = b) -> in_unit draw ->
  Forall g_ok path -> path <> [] -> chained g_init g_fin q path q' ->
  optimize conf (seg conf) g_init g_fin g_rng (g_ev conf interp) (g_cut conf interp) dist (g_steer dist) valid stop draw fuel n path = Ok r ->
  chained g_init g_fin q r q' /\ r <> [] /\
  Forall (piece g_rng (g_cut conf interp) (g_steer dist) valid path) r /\
  (r = path \/ cost g_init g_fin dist r < cost g_init g_fin dist path).
Proof.
  intros conf interp dist valid stop draw fuel n path q q' r Hg D0 D1 HD A B D E.
  eapply C29_shortens; [apply straight_honest; exact Hg|apply straight_steers; assumption|exact HD|exact A|exact B|exact D|exact E].
Qed.
Theorem C29_straight_terminates : forall conf interp (dist : conf -> conf -> Qc) valid stop draw n path q q' J fuel,
  geodesic interp -> (forall a b, 0 <= dist a b) -> (forall a b, dist a b = 0 -> a = b) -> metric dist -> in_unit draw ->
  Forall g_ok path -> path <> [] -> chained g_init g_fin q path q' -> (0 < n)%nat -> 0 < dist q q' ->
  ShortcutProofs.qn n * cost g_init g_fin dist path <= ShortcutProofs.qn J * (Q2Qc (1 # 10000) * dist q q') ->
  (n + (n * (J + 1) + J) * (n + 1) < fuel)%nat ->
  exists r, optimize conf (seg conf) g_init g_fin g_rng (g_ev conf interp) (g_cut conf interp) dist (g_steer dist) valid stop draw fuel n path = Ok r.
Proof.
  intros conf interp dist valid stop draw n path q q' J fuel Hg D0 D1 HM HD A B D Hn Hd HJ HF.
  eapply C29_terminates_partial;
    [apply straight_honest; exact Hg|apply straight_defined; exact Hg|apply straight_steers; assumption|exact HD|exact HM
    |exact A|exact B|exact D|exact Hn|exact Hd|exact HJ|exact HF].
Qed.

(* ------------------------------------------------------------------ *)
(* a path on a line that goes 0 -> 4 -> 1 -> 6; the shortcuts that cross 2
   are refused *)
Definition zq (z : Z) : Qc := Q2Qc (inject_Z z).
Definition adist (a b : Qc) : Qc := if qleb a b then b - a else a - b.
Definition sg (a b : Z) : seg Qc := mkSeg (0, adist (zq a) (zq b)) (zq a) (zq b).
Definition zigzag : list (seg Qc) := [sg 0 4; sg 4 1; sg 1 6].
Definition draws (k : nat) : Qc * Qc := (Q2Qc (1 # 4), Q2Qc (3 # 4)).
Definition away (s : seg Qc) : bool := true.
Definition crosses (s : seg Qc) : bool :=
  negb (qltb (g_init s) (zq 2) && qltb (zq 2) (g_fin s)).
Definition run valid fuel := optimize Qc (seg Qc) g_init g_fin g_rng (g_ev Qc lerp) (g_cut Qc lerp)
  adist (g_steer adist) valid (fun _ => false) draws fuel 3 zigzag.
Definition rshow (r : res (list (seg Qc))) : list (Q * Q) :=
  match r with Ok l => map (fun s => (this (g_init s), this (g_fin s))) l | _ => [] end.

Lemma zigzag_ok : Forall g_ok zigzag.
Proof.
  apply Forall_forall. intros s [<-|[<-|[<-|[]]]]; (split; [discriminate|]);
    intros E; apply this_eq in E; vm_compute in E; discriminate.
Qed.
Lemma zigzag_chained : chained g_init g_fin (zq 0) zigzag (zq 6).
Proof. cbn. auto. Qed.
Lemma draws_unit : in_unit draws.
Proof. intros k. repeat split; discriminate. Qed.
Lemma adist_nonneg a b : 0 <= adist a b.
Proof. unfold adist. qcase a b; qc. Qed.
Lemma adist_zero a b : adist a b = 0 -> a = b.
Proof. unfold adist. qcase a b; intros; qc. Qed.
Lemma adist_metric : metric adist.
Proof.
  split; [intros q; unfold adist; qcase q q; qc|]. intros a b c. unfold adist.
  qcase a c; qcase a b; qcase b c; qc.
Qed.

(* the 12 units of the zigzag become a straight 6; when going up through 2 is
   refused the piece that did so in the input is kept; when everything is
   refused the input is returned *)
Example C29_ex :
  cost g_init g_fin adist zigzag = zq 12 /\
  rshow (run away 50) = ([(0, 3); (3, 3); (3, 6)]%Q) /\
  rshow (run crosses 50) = ([(0, 3); (3, 3); (3, 6)]%Q) /\
  rshow (run (fun _ => false) 50) = rshow (Ok zigzag).
Proof. split; [apply Qc_is_canon; reflexivity|]. split; [|split]; vm_compute; reflexivity. Qed.
Example C29_ex_hyp : geodesic lerp /\ (forall a b, 0 <= adist a b) /\ (forall a b, adist a b = 0 -> a = b) /\
  metric adist /\ in_unit draws /\ Forall g_ok zigzag /\ chained g_init g_fin (zq 0) zigzag (zq 6) /\
  0 < adist (zq 0) (zq 6).
Proof.
  repeat split; try apply lerp_geodesic; try apply adist_nonneg; try apply adist_zero; try apply adist_metric;
    try apply draws_unit; try exact zigzag_ok.
Qed.

Print Assumptions C29_shortens.
Print Assumptions C29_safe.
Print Assumptions C29_terminates_partial.
Print Assumptions C29_interrupted.
Print Assumptions C29_nothing_valid.
Print Assumptions C29_zero_loops_refuted.
Print Assumptions C29_straight.
Print Assumptions C29_straight_terminates.
