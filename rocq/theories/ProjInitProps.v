(* C113: a path projector works with a steering method of its own. *)
From Coq Require Import List Reals Lra Lia Arith.
From Verif Require Import Base XReal PolyProofs SteerModel SteerProps ProjInitModel.
Import ListNotations.
Open Scope R_scope.

Section Props.
Variables config fn rhs other : Type.
Variable rhs_of : fn -> config -> rhs.
Variable rhs_at : fn -> R -> rhs -> rhs.
Variable project : fn -> rhs -> line_search -> config -> bool * config.
Variable apply_other : other -> config -> bool * config.
Variable interpolate : config -> config -> R -> config.
Variable distance : config -> config -> R.
Notation cset := (cset fn rhs other).
Notation store := (store fn rhs other).
Notation session := (session config fn rhs other).
Notation op := (op config fn rhs other).
Notation run := (run config fn rhs other rhs_of rhs_at project apply_other interpolate distance).
Notation value := (value config fn rhs other rhs_at project apply_other interpolate).
Notation get := (get fn rhs other).
Notation history := (history config fn rhs other rhs_of rhs_at project apply_other interpolate distance).
Notation empty := (empty config fn rhs other).
Notation inv := (inv config fn rhs other).
Notation own := (own config).
Notation ordinary := (ordinary config fn rhs other).
Notation unchanged := (unchanged fn rhs other).
Notation prepared := (prepared config fn rhs other rhs_of).
Notation make_projector := (make_projector config fn rhs other rhs_of rhs_at project apply_other interpolate distance).
Notation projector_steer := (projector_steer config fn rhs other rhs_of rhs_at project apply_other interpolate distance).
Notation heap := (heap config fn rhs other).
Notation methods := (methods config fn rhs other).
Notation paths := (paths config fn rhs other).
Hypothesis absorbing : forall f s s' r, rhs_at f s (rhs_at f s' r) = rhs_at f s r.

Lemma history_inv w os w' : history w os w' -> inv w -> inv w'.
Proof. intros H I. exact (proj1 (history_keeps _ _ _ _ _ _ _ _ _ _ absorbing _ _ _ H I)). Qed.
Lemma replace_last {A} (l : list A) a b : replace (l ++ [a]) (length l) b = l ++ [b].
Proof. induction l as [|x l IH]; cbn; [reflexivity | rewrite IH; reflexivity]. Qed.
Lemma replace_other {A} (l : list A) : forall i j b, i <> j -> nth_error (replace l i b) j = nth_error l j.
Proof. induction l as [|x l IH]; intros [|i] [|j] b H; cbn; try reflexivity; try lia. apply IH. lia. Qed.

(* Building a projector changes neither the steering method it is built from,
   nor the other methods, constraint sets and paths. Its method has no
   constraints, or, if asked to keep them, a set of its own with the same
   content. *)
Theorem C113_made os w m c keep : history empty os w -> nth_error (methods w) m = Some c ->
  exists c', methods (make_projector w m keep) = methods w ++ [c'] /\
    paths (make_projector w m keep) = paths w /\
    unchanged (heap w) (heap (make_projector w m keep)) /\
    match keep, c with
    | true, Some i => exists j x, c' = Some j /\ get (heap w) j = None /\ get (heap w) i = Some x /\
                                  get (heap (make_projector w m keep)) j = Some x
    | _, _ => c' = None
    end.
Proof.
  intros H E. pose proof (history_inv _ _ _ H (inv_empty _ _ _ _)) as I.
  assert (V : forall i, c = Some i -> exists x, get (heap w) i = Some x).
  { intros i ->. apply get_some. apply (inv_methods _ _ _ _ _ I). exact (nth_error_In _ _ E). }
  unfold ProjInitModel.make_projector, projector_method. cbn [SteerModel.run]. rewrite E. unfold copy_set.
  destruct c as [i|].
  - destruct (V i eq_refl) as [x Ex]. rewrite Ex. destruct keep; cbn [SteerModel.heap SteerModel.methods SteerModel.paths].
    + exists (Some (length (heap w))). split; [reflexivity|]. split; [reflexivity|]. split; [apply unchanged_app|].
      exists (length (heap w)), x. split; [reflexivity|]. split; [unfold SteerModel.get; apply nth_error_None; lia|]. split; [reflexivity | apply get_app_new].
    + exists None. rewrite replace_last. split; [reflexivity|]. split; [reflexivity|]. split; [apply unchanged_app | reflexivity].
  - exists None. destruct keep; cbn [SteerModel.heap SteerModel.methods SteerModel.paths]; rewrite ?replace_last;
      (split; [reflexivity|]; split; [reflexivity|]; split; [apply unchanged_refl | reflexivity]).
Qed.

(* What the rest of the program does: anything but reaching into the steering
   method of the projector. *)
Definition away (pm : nat) (own_set : option ptr) (o : op) : Prop :=
  match o with
  | SetConstraints _ _ _ _ m _ => m <> pm
  | SetRhs _ _ _ _ i _ => own_set <> Some i
  | _ => True
  end.

Lemma method_stays w o pm c s : away pm s o -> nth_error (methods w) pm = Some c -> nth_error (methods (run w o)) pm = Some c.
Proof.
  intros A E. assert (L : (pm < length (methods w))%nat) by (apply nth_error_Some; congruence).
  destruct o as [x|i r| |m x|m|m q1 q2|k|k x|k u]; cbn [SteerModel.run away] in *.
  - exact E.
  - destruct (get (heap w) i); exact E.
  - cbn [SteerModel.methods]. rewrite nth_error_app1 by exact L. exact E.
  - cbn [SteerModel.methods]. rewrite replace_other by exact A. exact E.
  - destruct (nth_error (methods w) m); [|exact E]. destruct (copy_set _ _ _ _ _) as [h' c']. cbn [SteerModel.methods]. rewrite nth_error_app1 by exact L. exact E.
  - destruct (nth_error (methods w) m); [|exact E]. destruct (straight _ _ _ _ _ _ _ _ _ _) as [h' p]. exact E.
  - destruct (nth_error (paths w) k); [|exact E]. destruct (copy_path _ _ _ _ _ _) as [h' p']. exact E.
  - destruct (nth_error (paths w) k); exact E.
  - destruct (nth_error (paths w) k); exact E.
Qed.

(* the set of the projector is held by no path and keeps its content *)
Lemma set_stays w o pm j x : inv w -> ordinary w o -> away pm (Some j) o -> ~ In j (own (paths w)) -> get (heap w) j = Some x ->
  ~ In j (own (paths (run w o))) /\ get (heap (run w o)) j = Some x.
Proof.
  intros I O A N G. pose proof (get_lt _ _ _ _ _ _ G) as L. destruct I as [I1 I2 I3].
  destruct o as [y|i r| |m y|m|m q1 q2|k|k y|k u]; cbn [SteerModel.run away SteerProps.ordinary] in *.
  - cbn [SteerModel.heap SteerModel.paths]. split; [exact N | apply unchanged_app; exact G].
  - destruct (get (heap w) i) as [d|]; [|auto]. cbn [SteerModel.heap SteerModel.paths]. split; [exact N|].
    rewrite get_set_other; [exact G | intros ->; apply A; reflexivity].
  - auto.
  - auto.
  - destruct (nth_error (methods w) m) as [d|] eqn:E; [|auto]. destruct (copy_set _ _ _ _ _) as [h' c'] eqn:C. cbn [SteerModel.heap SteerModel.paths].
    split; [exact N|]. refine (proj1 (copy_set_fresh _ _ _ _ _ _ _ _ C) _ _ G). intros i ->. apply I3. exact (nth_error_In _ _ E).
  - destruct (nth_error (methods w) m) as [d|] eqn:E; [|auto].
    destruct (C95_straight config fn rhs other rhs_of distance (heap w) d q1 q2) as [h' [p [S [_ [_ [_ [_ [U Q]]]]]]]].
    { intros i ->. apply get_some, I3. exact (nth_error_In _ _ E). }
    rewrite S. cbn [SteerModel.heap SteerModel.paths]. split; [|apply U; exact G]. rewrite own_app. intros F. apply in_app_or in F. destruct F as [F|F]; [contradiction|].
    cbn [SteerProps.own flat_map] in F. destruct d as [d|]; [|rewrite Q in F; destruct F].
    destruct Q as [l [a [b [Jl [Nl _]]]]]. rewrite Jl in F. destruct F as [->|[]]. congruence.
  - destruct (nth_error (paths w) k) as [p|] eqn:E; [|auto]. unfold copy_path. destruct (copy_set _ _ _ _ _) as [h' c'] eqn:C. cbn [SteerModel.heap SteerModel.paths].
    destruct (copy_set_fresh _ _ _ _ _ _ _ (fun i Hi => I2 i (own_nth _ _ _ _ _ E Hi)) C) as [U F]. split; [|apply U; exact G].
    rewrite own_app. intros B. apply in_app_or in B. destruct B as [B|B]; [contradiction|]. cbn [SteerProps.own flat_map s_cons] in B.
    destruct c' as [l|]; [|destruct B]. destruct B as [->|[]]. specialize (F j eq_refl). lia.
  - destruct O.
  - destruct (nth_error (paths w) k) as [p|] eqn:E; [|auto]. cbn [SteerModel.heap SteerModel.paths]. split; [exact N|].
    unfold eval_path. destruct (s_cons _ p) as [i|] eqn:Ci; [|exact G]. destruct (get (heap w) i) as [d|] eqn:Ed; [|exact G]. cbn [snd].
    rewrite get_set_other; [exact G|]. intros ->. apply N. exact (own_nth _ _ _ _ _ E Ci).
Qed.

Lemma method_kept w os w' pm c s : history w os w' -> Forall (away pm s) os -> nth_error (methods w) pm = Some c -> nth_error (methods w') pm = Some c.
Proof.
  induction 1 as [w|w o os w' O H IH]; intros F E; [exact E|]. inversion F as [|? ? F1 F2]; subst. apply (IH F2). exact (method_stays _ _ _ _ _ F1 E).
Qed.
Lemma set_kept w os w' pm j x : history w os w' -> Forall (away pm (Some j)) os -> inv w -> ~ In j (own (paths w)) -> get (heap w) j = Some x ->
  get (heap w') j = Some x.
Proof.
  induction 1 as [w|w o os w' O H IH]; intros F I N G; [exact G|]. inversion F as [|? ? F1 F2]; subst.
  destruct (set_stays _ _ _ _ _ I O F1 N G) as [N' G']. apply (IH F2); [|exact N' | exact G'].
  exact (proj1 (step _ _ _ _ _ _ _ _ _ _ absorbing _ _ I O)).
Qed.
Lemma make_history w m (keep : bool) : history w (CopyMethod _ _ _ _ m :: if keep then [] else [SetConstraints _ _ _ _ (length (methods w)) None]) (make_projector w m keep).
Proof.
  unfold ProjInitModel.make_projector, projector_method. apply history_cons; [exact Logic.I|].
  destruct keep; [apply history_nil|]. apply history_cons; [exact Logic.I | apply history_nil].
Qed.

(* A projector that does not keep the constraints steers paths without
   constraints, whatever happened since it was built, in particular to the
   constraints of the steering method it was built from: each such path
   evaluates to the bare interpolation, everywhere and successfully. *)
Theorem C113_unconstrained os w m c os' w' q1 q2 : history empty os w -> nth_error (methods w) m = Some c ->
  history (make_projector w m false) os' w' -> Forall (away (length (methods w)) None) os' ->
  exists p, paths (projector_steer w' (length (methods w)) q1 q2) = paths w' ++ [p] /\
    s_init _ p = q1 /\ s_end _ p = q2 /\ s_first _ p = 0 /\ s_last _ p = distance q1 q2 /\ s_cons _ p = None /\
    (forall s, 0 < s < distance q1 q2 ->
       value (projector_steer w' (length (methods w)) q1 q2) (length (paths w')) s = Some (true, interpolate q1 q2 (s / distance q1 q2))) /\
    value (projector_steer w' (length (methods w)) q1 q2) (length (paths w')) 0 = Some (true, q1) /\
    (0 < distance q1 q2 ->
       value (projector_steer w' (length (methods w)) q1 q2) (length (paths w')) (distance q1 q2) = Some (true, q2)).
Proof.
  intros H E H' F. destruct (C113_made _ _ _ _ false H E) as [c' [M [_ [_ C']]]]. cbn in C'. subst c'.
  assert (E' : nth_error (methods w') (length (methods w)) = Some None).
  { refine (method_kept _ _ _ _ _ _ H' F _). rewrite M, nth_error_app2, Nat.sub_diag by lia. reflexivity. }
  unfold ProjInitModel.projector_steer. cbn [SteerModel.run]. rewrite E'. unfold straight, make_path, copy_set. cbn [SteerModel.paths].
  eexists. split; [reflexivity|]. cbn [s_init s_end s_first s_last s_cons]. do 5 (split; [reflexivity|]).
  unfold SteerModel.value. cbn [SteerModel.paths SteerModel.heap]. rewrite nth_error_app2, Nat.sub_diag by lia. cbn [nth_error].
  unfold eval_path. cbn [s_cons fst]. unfold path_at. cbn [s_init s_end s_first s_last]. split; [|split].
  - intros s Hs. destruct (reqb_spec s 0); [lra|]. destruct (reqb_spec (distance q1 q2 - 0) 0); [lra|]. destruct (reqb_spec s (distance q1 q2)); [lra|].
    cbn [orb]. do 3 f_equal. rewrite !Rminus_0_r. reflexivity.
  - destruct (reqb_spec 0 0); [|lra]. reflexivity.
  - intros D. destruct (reqb_spec (distance q1 q2) 0); [lra|]. destruct (reqb_spec (distance q1 q2 - 0) 0); [lra|].
    destruct (reqb_spec (distance q1 q2) (distance q1 q2)); [|lra]. reflexivity.
Qed.

(* A projector that keeps the constraints steers under those the method had
   when the projector was built, whatever happened since to the method and to
   its constraint set. *)
Theorem C113_kept os w m i x os' w' q1 q2 : history empty os w -> nth_error (methods w) m = Some (Some i) -> get (heap w) i = Some x ->
  history (make_projector w m true) os' w' -> Forall (away (length (methods w)) (Some (length (heap w)))) os' ->
  exists p j y, paths (projector_steer w' (length (methods w)) q1 q2) = paths w' ++ [p] /\
    s_init _ p = q1 /\ s_end _ p = q2 /\ s_last _ p = distance q1 q2 /\ s_cons _ p = Some j /\
    get (heap (projector_steer w' (length (methods w)) q1 q2)) j = Some y /\ prepared x q1 y.
Proof.
  intros H E Ex H' F. pose proof (history_inv _ _ _ H (inv_empty _ _ _ _)) as I.
  pose proof (history_inv _ _ _ (make_history w m true) I) as I'.
  assert (Q : make_projector w m true = {| SteerModel.heap := heap w ++ [x]; SteerModel.methods := methods w ++ [Some (length (heap w))]; SteerModel.paths := paths w |}).
  { unfold ProjInitModel.make_projector. cbn [SteerModel.run]. rewrite E. unfold copy_set. rewrite Ex. reflexivity. }
  assert (G : get (heap w') (length (heap w)) = Some x).
  { refine (set_kept _ _ _ _ _ _ H' F I' _ _); rewrite Q; cbn [SteerModel.heap SteerModel.paths]; [|apply get_app_new].
    intros B. apply (inv_paths _ _ _ _ _ I) in B. lia. }
  assert (E' : nth_error (methods w') (length (methods w)) = Some (Some (length (heap w)))).
  { refine (method_kept _ _ _ _ _ _ H' F _). rewrite Q. cbn [SteerModel.methods]. rewrite nth_error_app2, Nat.sub_diag by lia. reflexivity. }
  destruct (C95_straight config fn rhs other rhs_of distance (heap w') (Some (length (heap w))) q1 q2) as [h' [p [S [P1 [P2 [_ [P4 [_ [j [x' [y [J [_ [X [Y P]]]]]]]]]]]]]]].
  { intros k [= <-]. eauto. }
  rewrite G in X. injection X as <-. exists p, j, y. unfold ProjInitModel.projector_steer. cbn [SteerModel.run]. rewrite E', S. cbn [SteerModel.paths SteerModel.heap].
  repeat (split; [assumption || reflexivity|]). exact P.
Qed.
End Props.

(* ------------------------------------------------------------------ examples *)
Notation demo_history := (history pt unit R unit demo_rhs_of demo_rhs_at demo_project demo_other demo_interpolate demo_distance).
Notation demo_projector := (make_projector pt unit R unit demo_rhs_of demo_rhs_at demo_project demo_other demo_interpolate demo_distance).
Notation demo_steer := (projector_steer pt unit R unit demo_rhs_of demo_rhs_at demo_project demo_other demo_interpolate demo_distance).
(* after a projector was built, the method gets another set and the first set is modified *)
Definition meanwhile : list (op pt unit R unit) :=
  [NewSet _ _ _ _ (level 8); SetConstraints _ _ _ _ 0%nat None; SetRhs _ _ _ _ 0%nat 7; Eval _ _ _ _ 0%nat 1; Steer _ _ _ _ 0%nat (0, 3) (1, 4)].
Example projector_demo (keep : bool) :
  let w := fold_left demo_run prefix start in
  demo_history start prefix w /\
  nth_error (methods _ _ _ _ w) 0 = Some (Some 0%nat) /\ get _ _ _ (heap _ _ _ _ w) 0%nat = Some (level 5) /\
  demo_history (demo_projector w 0%nat keep) meanwhile (fold_left demo_run meanwhile (demo_projector w 0%nat keep)) /\
  Forall (away pt unit R unit (length (methods _ _ _ _ w)) None) meanwhile /\
  Forall (away pt unit R unit (length (methods _ _ _ _ w)) (Some (length (heap _ _ _ _ w)))) meanwhile.
Proof.
  intros w. split; [unfold w, prefix; repeat (eapply history_cons; [cbn; try exact I; try lia|]); apply history_nil|].
  split; [reflexivity|]. split; [reflexivity|]. split.
  { unfold meanwhile. destruct keep; repeat (eapply history_cons; [cbn; try exact I; try lia|]); apply history_nil. }
  split; unfold meanwhile; repeat constructor; cbn; try discriminate.
Qed.
(* with the constraints of the method (height of the start kept), the path from
   (0, 1) to (2, 3) would be at (1, 1) in the middle: the projector goes through (1, 2) *)
Example projector_bare :
  let w := demo_projector (fold_left demo_run prefix start) 0%nat false in
  demo_value (demo_steer w 1%nat (0, 1) (2, 3)) 1%nat 2 = Some (true, (1, 2)) /\
  demo_value (demo_steer w 0%nat (0, 1) (2, 3)) 1%nat 2 = Some (true, (1, 1)).
Proof.
  assert (D : demo_distance (0, 1) (2, 3) = 4).
  { unfold demo_distance. cbn [fst snd]. rewrite !Rabs_right by lra. lra. }
  split; cbn; unfold path_at; cbn [s_first s_last s_init s_end]; rewrite D;
    (destruct (reqb_spec 2 0); [lra|]); (destruct (reqb_spec (4 - 0) 0); [lra|]); (destruct (reqb_spec 2 4); [lra|]);
    cbn [orb]; unfold demo_project, demo_other, demo_interpolate; cbn; repeat f_equal; field.
Qed.

Print Assumptions C113_made.
Print Assumptions C113_unconstrained.
Print Assumptions C113_kept.
