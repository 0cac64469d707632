(* Property theorems for the simple shortcut optimizer (C30). *)
From Coq Require Import Lia Lqa.
From Verif Require Import Base RoadmapModel RoadmapSpec VecSpec SimpleCutModel SimpleCutSpec SimpleCutProofs SimpleCutProofs2.

(* Whatever the steering method, the projector and the validation do, a path
   between two different configurations is replaced by a contiguous path with
   the same ends, made of sub-paths of the input and of accepted shortcuts
   between its corners. *)
Theorem C30_sound : forall C P ceqb dist plen pinit pend steer sm valid (path : list P) (q q' : C),
  separating ceqb dist -> (forall a b p, steer a b = Some p -> pinit p = a /\ pend p = b) ->
  path <> [] -> chained pinit pend q path q' -> q <> q' ->
  exists r, simple_optimize C P ceqb dist plen pinit pend steer sm valid path = Ok r /\
    chained pinit pend q r q' /\ Forall (candidate pinit pend steer valid path) r.
Proof.
  intros. destruct (opt_open ceqb dist plen pinit pend steer sm valid H H0 path q q' H1 H2 H3) as (r & A & B & D & _).
  exists r. auto.
Qed.
(* It is not longer than the input when no path is shorter than the distance
   between its ends. *)
Theorem C30_shortens_partial : forall C P ceqb dist plen pinit pend steer sm valid (path : list P) (q q' : C) r,
  separating ceqb dist -> qmetric dist -> (forall a b p, steer a b = Some p -> pinit p = a /\ pend p = b) ->
  path <> [] -> chained pinit pend q path q' -> q <> q' ->
  (forall p, candidate pinit pend steer valid path p -> (dist (pinit p) (pend p) <= plen p)%Q) ->
  simple_optimize C P ceqb dist plen pinit pend steer sm valid path = Ok r ->
  (total plen r <= total plen path)%Q.
Proof.
  intros C P ceqb dist plen pinit pend steer sm valid path q q' r H HM H0 H1 H2 H3 HL E.
  destruct (opt_open ceqb dist plen pinit pend steer sm valid H H0 path q q' H1 H2 H3) as (r' & A & B & D & K).
  rewrite E in A. injection A as <-. exact (proj1 (K HM HL)).
Qed.
(* When, moreover, the corners are distinct, it is the shortest path made of
   such pieces. *)
Theorem C30_optimal : forall C P ceqb dist plen pinit pend steer sm valid (path : list P) (q q' : C) r,
  separating ceqb dist -> qmetric dist -> (forall a b p, steer a b = Some p -> pinit p = a /\ pend p = b) ->
  path <> [] -> chained pinit pend q path q' -> q <> q' ->
  (forall p, candidate pinit pend steer valid path p -> (dist (pinit p) (pend p) <= plen p)%Q) ->
  NoDup (corners pinit pend path) ->
  simple_optimize C P ceqb dist plen pinit pend steer sm valid path = Ok r ->
  forall l, chained pinit pend q l q' -> Forall (candidate pinit pend steer valid path) l ->
    (total plen r <= total plen l)%Q.
Proof.
  intros C P ceqb dist plen pinit pend steer sm valid path q q' r H HM H0 H1 H2 H3 HL ND E.
  destruct (opt_open ceqb dist plen pinit pend steer sm valid H H0 path q q' H1 H2 H3) as (r' & A & B & D & K).
  rewrite E in A. injection A as <-. exact (proj2 (K HM HL) ND).
Qed.
(* A path which comes back where it starts is replaced by what the steering
   method answers between this configuration and itself, unprojected and not
   validated; a null answer is dereferenced. *)
Theorem C30_closed : forall C P ceqb dist plen pinit pend steer sm valid (path : list P) (q : C),
  separating ceqb dist -> (forall a b p, steer a b = Some p -> pinit p = a /\ pend p = b) ->
  path <> [] -> chained pinit pend q path q ->
  simple_optimize C P ceqb dist plen pinit pend steer sm valid path =
    match sm q q with None => UB | Some p => Ok [p] end.
Proof.
  intros. exact (opt_closed ceqb dist plen pinit pend steer sm valid H H0 path q q H1 H2 eq_refl).
Qed.

(* ------------------------------------------------------------------ *)
(* paths on a line: initial and final configuration, length *)
Definition lpath : Type := (Z * Z * Q)%type.
Definition lp (a b : Z) (l : Q) : lpath := (a, b, l).
Definition li (p : lpath) : Z := fst (fst p).
Definition le (p : lpath) : Z := snd (fst p).
Definition ll (p : lpath) : Q := snd p.
Definition ld (a b : Z) : Q := inject_Z (Z.abs (a - b)).
Definition lsteer (k : Q) (a b : Z) : option lpath := Some (a, b, (k * ld a b)%Q).
(* going up through 2 is refused *)
Definition lvalid (p : lpath) : bool := negb ((li p <? 2)%Z && (2 <? le p)%Z).
Definition lopt k valid := simple_optimize Z lpath Z.eqb ld ll li le (lsteer k) (lsteer 1) valid.

Lemma ld_sep : separating Z.eqb ld.
Proof.
  split; [apply Z.eqb_eq|]. split.
  - intros a b. unfold ld, Qle. cbn. lia.
  - intros a b. unfold ld, Qeq. cbn. lia.
Qed.
Lemma ld_metric : qmetric ld.
Proof.
  split; [apply ld_sep|]. split.
  - intros a. unfold ld, Qeq. cbn. lia.
  - intros a b c. unfold ld. rewrite <- inject_Z_plus. rewrite <- Zle_Qle. lia.
Qed.
Lemma lsteer_joins k a b p : lsteer k a b = Some p -> li p = a /\ le p = b.
Proof. intros E. injection E as <-. split; reflexivity. Qed.

Definition lzig : list lpath := [lp 0 4 4; lp 4 1 3; lp 1 6 5].
(* everything accepted: one straight path; going up through 2 refused: the
   input pieces that do so remain *)
Example C30_ex : lopt 1 (fun _ => true) lzig = Ok [lp 0 6 (1 * 6)] /\
  lopt 1 lvalid lzig = Ok [lp 0 4 4; lp 4 6 (1 * 2)].
Proof. split; vm_compute; reflexivity. Qed.
Example C30_ex_hyp : separating Z.eqb ld /\ qmetric ld /\ chained li le 0%Z lzig 6%Z /\
  NoDup (corners li le lzig) /\
  (forall p, candidate li le (lsteer 1) lvalid lzig p -> (ld (li p) (le p) <= ll p)%Q).
Proof.
  split; [apply ld_sep|]. split; [apply ld_metric|]. split; [cbn; auto|]. split.
  - repeat constructor; cbn; intuition lia.
  - intros p [[<-|[<-|[<-|[]]]]|(i & j & a & b & _ & _ & _ & E & _)]; try discriminate.
    injection E as <-. cbn. unfold li, le. cbn [fst snd]. rewrite Qmult_1_l. apply Qle_refl.
Qed.

(* Without the hypothesis on the lengths (for instance after a time
   parameterization, when the lengths are durations): a longer path. *)
Theorem C30_longer_refuted : exists path r, path <> [] /\ chained li le 0%Z path 1%Z /\
  Forall (fun p => (0 <= ll p)%Q) path /\
  lopt 3 (fun _ => true) path = Ok r /\ (total ll path < total ll r)%Q.
Proof.
  exists [lp 0 5 1; lp 5 1 1], [lp 0 1 (3 * 1)]. split; [discriminate|]. split; [cbn; auto|].
  split; [repeat constructor; discriminate|]. split; vm_compute; reflexivity.
Qed.
(* With a distance which ignores some differences (a weight equal to 0), the
   goal is put in another node than the end of the path: an exception. *)
Theorem C30_pseudo_distance_refuted : exists (dist : Z -> Z -> Q) (path : list lpath),
  qmetric dist /\ path <> [] /\ chained li le 0%Z path 2%Z /\
  (forall p, candidate li le (lsteer 1) (fun _ => false) path p -> (dist (li p) (le p) <= ll p)%Q) /\
  simple_optimize Z lpath Z.eqb dist ll li le (lsteer 1) (lsteer 1) (fun _ => false) path = Throw.
Proof.
  exists (fun _ _ => 0%Q), [lp 0 1 1; lp 1 2 1]. split; [|split; [discriminate|split; [cbn; auto|split]]].
  - split; [intros; apply Qle_refl|]. split; [intros; reflexivity|]. intros. unfold Qle. cbn. lia.
  - intros p [[<-|[<-|[]]]|(i & j & a & b & _ & _ & _ & _ & E)]; try discriminate.
  - vm_compute. reflexivity.
Qed.
Example C30_closed_ex : lopt 1 (fun _ => false) [lp 0 4 4; lp 4 0 4] = Ok [lp 0 0 (1 * 0)].
Proof. vm_compute. reflexivity. Qed.

Print Assumptions C30_sound.
Print Assumptions C30_shortens_partial.
Print Assumptions C30_optimal.
Print Assumptions C30_closed.
Print Assumptions C30_longer_refuted.
Print Assumptions C30_pseudo_distance_refuted.
