(* C95: straight steering under constraints, and independence of paths. *)
From Coq Require Import List Reals Lra Lia Arith.
From Verif Require Import Base XReal PolyProofs SteerModel.
Import ListNotations.
Open Scope R_scope.

Section Props.
Variables config fn rhs other : Type.
Variable rhs_of : fn -> config -> rhs.
Variable rhs_at : fn -> R -> rhs -> rhs.
Variable project : fn -> rhs -> line_search -> config -> bool * config.
Variable apply_other : other -> config -> bool * config.
Variable interpolate : config -> config -> R -> config.
Variable distance : config -> config -> R.
Notation cset := (cset fn rhs other).
Notation store := (store fn rhs other).
Notation path := (path config).
Notation session := (session config fn rhs other).
Notation op := (op config fn rhs other).
Notation straight := (straight config fn rhs other rhs_of distance).
Notation eval_path := (eval_path config fn rhs other rhs_at project apply_other interpolate).
Notation run := (run config fn rhs other rhs_of rhs_at project apply_other interpolate distance).
Notation value := (value config fn rhs other rhs_at project apply_other interpolate).
Notation get := (get fn rhs other).
Notation set := (set fn rhs other).
Notation rhs_at_param := (rhs_at_param fn rhs other rhs_at).
Notation apply_set := (apply_set config fn rhs other project apply_other).

Lemma set_length (h : store) : forall i c, length (set h i c) = length h.
Proof. induction h as [|x h IH]; intros [|i] c; cbn [SteerModel.set length]; auto. Qed.
Lemma get_set_same (h : store) : forall i c, (i < length h)%nat -> get (set h i c) i = Some c.
Proof. unfold SteerModel.get. induction h as [|x h IH]; intros [|i] c H; cbn in *; try lia; [reflexivity | apply IH; lia]. Qed.
Lemma get_set_other (h : store) : forall i j c, i <> j -> get (set h i c) j = get h j.
Proof. unfold SteerModel.get. induction h as [|x h IH]; intros [|i] [|j] c H; cbn; try reflexivity; try lia. apply IH. lia. Qed.
Lemma get_app_old (h : store) t i : (i < length h)%nat -> get (h ++ t) i = get h i.
Proof. intros H. unfold SteerModel.get. apply nth_error_app1. exact H. Qed.
Lemma get_app_new (h : store) c : get (h ++ [c]) (length h) = Some c.
Proof. unfold SteerModel.get. rewrite nth_error_app2, Nat.sub_diag by lia. reflexivity. Qed.
Lemma get_lt (h : store) i c : get h i = Some c -> (i < length h)%nat.
Proof. unfold SteerModel.get. intros E. apply nth_error_Some. congruence. Qed.

(* the objects that existed are as they were *)
Definition unchanged (h h' : store) : Prop := forall i c, get h i = Some c -> get h' i = Some c.
Lemma unchanged_refl h : unchanged h h. Proof. intros i c E; exact E. Qed.
Lemma unchanged_app h t : unchanged h (h ++ t).
Proof. intros i c E. rewrite get_app_old; [exact E | exact (get_lt _ _ _ E)]. Qed.
Lemma unchanged_trans h1 h2 h3 : unchanged h1 h2 -> unchanged h2 h3 -> unchanged h1 h3.
Proof. intros A B i c E. apply B, A, E. Qed.

(* --------------------------------------------------------- straight method *)
(* the constraint set of a path made by a steering method whose set is [x] *)
Definition prepared (x : cset) (q1 : config) (y : cset) : Prop :=
  c_before _ _ _ y = c_before _ _ _ x /\ c_after _ _ _ y = c_after _ _ _ x /\
  match c_proj _ _ _ x, c_proj _ _ _ y with
  | Some p, Some p' => p_fn _ _ p' = p_fn _ _ p /\ p_rhs _ _ p' = rhs_of (p_fn _ _ p) q1 /\ p_ls _ _ p' = Backtracking
  | None, None => True
  | _, _ => False
  end.

Lemma make_path_some (h : store) q1 q2 a b i x : get h i = Some x ->
  make_path config fn rhs other h q1 q2 a b (Some i) =
  (h ++ [x], {| s_init := q1; s_end := q2; s_first := a; s_last := b; s_cons := Some (length h) |}).
Proof. intros E. unfold make_path, copy_set. rewrite E. reflexivity. Qed.

(* A straight path goes from one configuration to the other, lasts their
   distance, and holds a constraint set of its own: that of the method, with
   the right hand side of the first configuration. Nothing else changes. *)
Theorem C95_straight (h : store) c q1 q2 : (forall i, c = Some i -> exists x, get h i = Some x) ->
  exists h' p, straight h c q1 q2 = (h', p) /\
    s_init _ p = q1 /\ s_end _ p = q2 /\ s_first _ p = 0 /\ s_last _ p = distance q1 q2 /\
    unchanged h h' /\
    match c with
    | None => s_cons _ p = None
    | Some i => exists j x y, s_cons _ p = Some j /\ get h j = None /\ get h i = Some x /\ get h' j = Some y /\ prepared x q1 y
    end.
Proof.
  intros V. unfold SteerModel.straight. destruct c as [i|].
  2:{ do 2 eexists. split; [reflexivity|]. cbn [s_init s_end s_first s_last s_cons]. repeat split. apply unchanged_refl. }
  destruct (V i eq_refl) as [x Ex]. rewrite Ex. assert (Nn : forall k, get h (length h + k)%nat = None) by (intros k; unfold SteerModel.get; apply nth_error_None; lia).
  destruct (c_proj _ _ _ x) as [p|] eqn:Ep.
  - unfold copy_set. rewrite Ex, get_app_new. set (y := set_line_search fn rhs other (rhs_from_config config fn rhs other rhs_of x q1) Backtracking).
    set (h1 := set (h ++ [x]) (length h) y).
    assert (L1 : length h1 = (length h + 1)%nat) by (unfold h1; rewrite set_length, app_length; reflexivity).
    assert (G : get h1 (length h) = Some y) by (unfold h1; apply get_set_same; rewrite app_length; cbn; lia).
    rewrite (make_path_some _ _ _ _ _ _ _ G). do 2 eexists. split; [reflexivity|]. cbn [s_init s_end s_first s_last s_cons].
    assert (U : unchanged h h1).
    { intros k z E. pose proof (get_lt _ _ _ E). unfold h1. rewrite get_set_other by lia. rewrite get_app_old by exact H. exact E. }
    repeat split; [eapply unchanged_trans; [exact U | apply unchanged_app]|].
    exists (length h1), x, y. split; [reflexivity|]. split; [rewrite L1; apply Nn|]. split; [reflexivity|]. split; [apply get_app_new|].
    unfold prepared, y, set_line_search, rhs_from_config. rewrite Ep. cbn. repeat split.
  - rewrite (make_path_some _ _ _ _ _ _ _ Ex). do 2 eexists. split; [reflexivity|]. cbn [s_init s_end s_first s_last s_cons].
    repeat split; [apply unchanged_app|]. exists (length h), x, x. split; [reflexivity|]. split; [rewrite <- (Nat.add_0_r (length h)); apply Nn|].
    split; [reflexivity|]. split; [apply get_app_new|]. unfold prepared. rewrite Ep. auto.
Qed.

(* ------------------------------------------------------------ ends of paths *)
(* [q] is left alone by the set when the right hand side is that of [q0] *)
Definition fixed_by (x : cset) (q0 q : config) (s : R) : Prop :=
  forall y, prepared x q0 y -> apply_set (rhs_at_param y s) q = (true, q).
(* The path evaluates to the configurations it was asked for, if both satisfy
   the constraints with the right hand side of the first. *)
Theorem C95_ends (h : store) i x q1 q2 : get h i = Some x -> 0 < distance q1 q2 ->
  fixed_by x q1 q1 0 -> fixed_by x q1 q2 (distance q1 q2) ->
  let (h', p) := straight h (Some i) q1 q2 in
  fst (eval_path h' p 0) = (true, q1) /\ fst (eval_path h' p (distance q1 q2)) = (true, q2).
Proof.
  intros E D F1 F2. destruct (C95_straight h (Some i) q1 q2) as [h' [p [S [I1 [I2 [T0 [T1 [_ [j [x' [y [J [_ [Ex [Ey P]]]]]]]]]]]]]]].
  { intros k [= <-]. exists x. exact E. }
  rewrite S. rewrite E in Ex. injection Ex as <-. unfold SteerModel.eval_path. rewrite J, Ey. cbn [fst]. unfold path_at. rewrite T0, T1.
  destruct (reqb_spec 0 0); [|lra]. destruct (reqb_spec (distance q1 q2) 0); [lra|]. destruct (reqb_spec (distance q1 q2 - 0) 0); [lra|].
  destruct (reqb_spec (distance q1 q2) (distance q1 q2)); [|lra]. cbn [orb]. rewrite I1, I2. split; [apply F1 | apply F2]; exact P.
Qed.
(* If the constraints of the second configuration have another right hand side,
   the path does not go there although its end is announced to be there. *)
Definition honest (ok : fn -> rhs -> config -> Prop) : Prop := forall f r l q q', project f r l q = (true, q') -> ok f r q'.
Theorem C95_ends_refuted ok (h : store) i x p0 q1 q2 : honest ok -> get h i = Some x -> c_proj _ _ _ x = Some p0 ->
  (forall q, apply_other (c_after _ _ _ x) q = (true, q)) ->
  ~ ok (p_fn _ _ p0) (rhs_at (p_fn _ _ p0) (distance q1 q2) (rhs_of (p_fn _ _ p0) q1)) q2 ->
  let (h', p) := straight h (Some i) q1 q2 in
  s_end _ p = q2 /\ s_last _ p = distance q1 q2 /\ fst (eval_path h' p (distance q1 q2)) <> (true, q2).
Proof.
  intros Hn E Ep Af N. destruct (C95_straight h (Some i) q1 q2) as [h' [p [S [I1 [I2 [T0 [T1 [_ [j [x' [y [J [_ [Ex [Ey P]]]]]]]]]]]]]]].
  { intros k [= <-]. exists x. exact E. }
  rewrite S. rewrite E in Ex. injection Ex as <-. split; [exact I2|]. split; [exact T1|]. unfold SteerModel.eval_path. rewrite J, Ey. cbn [fst].
  destruct P as [P1 [P2 P3]]. rewrite Ep in P3. destruct (c_proj _ _ _ y) as [py|] eqn:Epy; [|contradiction]. destruct P3 as [Q1 [Q2 Q3]].
  unfold SteerModel.apply_set, SteerModel.rhs_at_param. rewrite Epy. cbn [c_proj c_before c_after p_fn p_rhs p_ls]. rewrite Q1, Q2, P2.
  destruct (apply_other (c_before _ _ _ y) (path_at config interpolate p (distance q1 q2))) as [b qa]. destruct b; [|discriminate].
  destruct (project (p_fn _ _ p0) (rhs_at (p_fn _ _ p0) (distance q1 q2) (rhs_of (p_fn _ _ p0) q1)) (p_ls _ _ py) qa) as [b2 qb] eqn:Pr.
  destruct b2; [|discriminate]. rewrite Af. intros [= ->]. apply N. exact (Hn _ _ _ _ _ Pr).
Qed.

(* --------------------------------------------------- independence of paths *)
Definition own (ps : list path) : list ptr := flat_map (fun p => match s_cons _ p with Some i => [i] | None => [] end) ps.
(* What a program does without reaching into the constraint set of a path:
   every operation but giving its own set to a copy of a path, and modifying
   the set of a path. *)
Definition ordinary (w : session) (o : op) : Prop :=
  match o with
  | SetRhs _ _ _ _ i _ => ~ In i (own (paths _ _ _ _ w))
  | CopyPathWith _ _ _ _ _ _ => False
  | SetConstraints _ _ _ _ _ (Some i) => (i < length (heap _ _ _ _ w))%nat
  | _ => True
  end.
Inductive history : session -> list op -> session -> Prop :=
  | history_nil w : history w [] w
  | history_cons w o os w' : ordinary w o -> history (run w o) os w' -> history w (o :: os) w'.
Definition empty : session := {| heap := []; methods := []; paths := [] |}.

Definition same_at (c c' : cset) : Prop := forall s, rhs_at_param c s = rhs_at_param c' s.
Record inv (w : session) : Prop := {
  inv_own : NoDup (own (paths _ _ _ _ w));
  inv_paths : forall i, In i (own (paths _ _ _ _ w)) -> (i < length (heap _ _ _ _ w))%nat;
  inv_methods : forall i, In (Some i) (methods _ _ _ _ w) -> (i < length (heap _ _ _ _ w))%nat }.
Definition keeps (w w' : session) : Prop :=
  (exists ps, paths _ _ _ _ w' = paths _ _ _ _ w ++ ps) /\
  forall i c, In i (own (paths _ _ _ _ w)) -> get (heap _ _ _ _ w) i = Some c -> exists c', get (heap _ _ _ _ w') i = Some c' /\ same_at c c'.

Lemma own_app a b : own (a ++ b) = own a ++ own b. Proof. apply flat_map_app. Qed.
Lemma get_some (h : store) i : (i < length h)%nat -> exists c, get h i = Some c.
Proof. intros H. destruct (get h i) eqn:E; [eauto|]. unfold SteerModel.get in E. apply nth_error_None in E. lia. Qed.
Lemma unchanged_length h h' : unchanged h h' -> (length h <= length h')%nat.
Proof.
  intros U. destruct (le_lt_dec (length h) (length h')) as [L|L]; [exact L|]. destruct (get_some h _ L) as [c E]. apply U in E. apply get_lt in E. lia.
Qed.
Lemma own_nth ps k p i : nth_error ps k = Some p -> s_cons _ p = Some i -> In i (own ps).
Proof. intros E C. unfold own. apply in_flat_map. exists p. split; [exact (nth_error_In _ _ E) | rewrite C; left; reflexivity]. Qed.
Lemma NoDup_snoc (l : list ptr) i : NoDup l -> ~ In i l -> NoDup (l ++ [i]).
Proof.
  induction l as [|x l IH]; intros N H; [constructor; [intros [] | constructor]|]. inversion N as [|? ? Hx N']; subst. cbn [app]. constructor.
  - rewrite in_app_iff. intros [X|[X|[]]]; [contradiction | subst; apply H; left; reflexivity].
  - apply IH; [exact N' | intros X; apply H; right; exact X].
Qed.
(* adding a path with a fresh set (or none), without changing older sets *)
Lemma add_path w h' p : inv w -> unchanged (heap _ _ _ _ w) h' ->
  (forall i, s_cons _ p = Some i -> (length (heap _ _ _ _ w) <= i < length h')%nat) ->
  let w' := {| heap := h'; methods := methods _ _ _ _ w; paths := paths _ _ _ _ w ++ [p] |} in inv w' /\ keeps w w'.
Proof.
  intros [I1 I2 I3] U F w'. pose proof (unchanged_length _ _ U) as L. split.
  - split; cbn [w' paths heap methods].
    + rewrite own_app. unfold own at 2. cbn [flat_map]. destruct (s_cons _ p) as [i|] eqn:E; [|rewrite !app_nil_r; exact I1].
      rewrite app_nil_r. specialize (F i eq_refl). apply (NoDup_snoc _ _ I1). intros H. apply I2 in H. lia.
    + intros i H. rewrite own_app in H. apply in_app_or in H. destruct H as [H|H]; [apply I2 in H; lia|].
      unfold own in H. cbn [flat_map] in H. destruct (s_cons _ p) as [j|] eqn:E; [|destruct H]. cbn in H. destruct H as [<-|[]]. apply F. reflexivity.
    + intros i H. apply I3 in H. lia.
  - split; [exists [p]; reflexivity|]. intros i c _ E. exists c. split; [apply U; exact E | intros s; reflexivity].
Qed.
(* operations which leave the paths alone *)
Lemma only_heap w h' ms : inv w -> unchanged (heap _ _ _ _ w) h' -> (forall i, In (Some i) ms -> (i < length h')%nat) ->
  let w' := {| heap := h'; methods := ms; paths := paths _ _ _ _ w |} in inv w' /\ keeps w w'.
Proof.
  intros [I1 I2 I3] U F w'. pose proof (unchanged_length _ _ U) as L. split.
  - split; cbn [w' paths heap methods]; [exact I1 | intros i H; apply I2 in H; lia | exact F].
  - split; [exists []; rewrite app_nil_r; reflexivity|]. intros i c _ E. exists c. split; [apply U; exact E | intros s; reflexivity].
Qed.
Lemma keeps_refl w : keeps w w.
Proof. split; [exists []; rewrite app_nil_r; reflexivity|]. intros i c _ E. exists c. split; [exact E | intros s; reflexivity]. Qed.
Lemma in_replace {A} (l : list A) : forall m x y, In y (replace l m x) -> y = x \/ In y l.
Proof.
  induction l as [|a l IH]; intros [|m] x y H; cbn in *; try tauto.
  - destruct H as [<-|H]; auto.
  - destruct H as [<-|H]; [auto|]. destruct (IH _ _ _ H); auto.
Qed.
Lemma copy_set_fresh (h : store) o h' o' : (forall i, o = Some i -> (i < length h)%nat) -> copy_set fn rhs other h o = (h', o') ->
  unchanged h h' /\ forall i, o' = Some i -> (length h <= i < length h')%nat.
Proof.
  intros V. unfold copy_set. destruct o as [i|]; [|intros [= <- <-]; split; [apply unchanged_refl | discriminate]].
  destruct (get_some h i (V i eq_refl)) as [c Ec]. rewrite Ec. intros [= <- <-]. split; [apply unchanged_app|].
  intros k [= <-]. rewrite app_length. cbn. lia.
Qed.
Section Absorbing.
Hypothesis absorbing : forall f s s' r, rhs_at f s (rhs_at f s' r) = rhs_at f s r.
Lemma same_at_eval c s : same_at c (rhs_at_param c s).
Proof.
  intros u. unfold SteerModel.rhs_at_param. destruct c as [[[f r l]|] b a]; cbn [c_proj c_before c_after p_fn p_rhs p_ls]; [|reflexivity].
  rewrite absorbing. reflexivity.
Qed.
Lemma step w o : inv w -> ordinary w o -> inv (run w o) /\ keeps w (run w o).
Proof.
  intros I O. destruct I as [I1 I2 I3]. assert (I : inv w) by (split; assumption). destruct o as [c|i r| |m c|m|m q1 q2|k|k c|k s]; cbn [SteerModel.run ordinary] in *.
  - apply only_heap; [exact I | apply unchanged_app|]. intros i H. apply I3 in H. rewrite app_length. lia.
  - destruct (get (heap _ _ _ _ w) i) as [c|] eqn:E; [|split; [exact I | apply keeps_refl]]. split.
    + split; cbn [paths heap methods]; [exact I1 | |]; intros j H; rewrite set_length; auto.
    + split; [exists []; rewrite app_nil_r; reflexivity|]. intros j d Hj Ed. exists d. split; [|intros s; reflexivity].
      cbn [heap]. rewrite get_set_other; [exact Ed | intros ->; contradiction].
  - apply only_heap; [exact I | apply unchanged_refl|]. intros i H. apply in_app_or in H. destruct H as [H|[H|[]]]; [apply I3; exact H | discriminate].
  - apply only_heap; [exact I | apply unchanged_refl|]. intros i H. destruct (in_replace _ _ _ _ H) as [<-|H']; [exact O | apply I3; exact H'].
  - destruct (nth_error (methods _ _ _ _ w) m) as [c|] eqn:E; [|split; [exact I | apply keeps_refl]].
    destruct (copy_set fn rhs other (heap _ _ _ _ w) c) as [h' c'] eqn:C.
    assert (V : forall i, c = Some i -> (i < length (heap _ _ _ _ w))%nat) by (intros i ->; apply I3; exact (nth_error_In _ _ E)).
    destruct (copy_set_fresh _ _ _ _ V C) as [U F].
    apply only_heap; [exact I | exact U|]. pose proof (unchanged_length _ _ U). intros i H'. apply in_app_or in H'. destruct H' as [H'|[H'|[]]]; [apply I3 in H'; lia | apply F; exact H'].
  - destruct (nth_error (methods _ _ _ _ w) m) as [c|] eqn:E; [|split; [exact I | apply keeps_refl]].
    destruct (C95_straight (heap _ _ _ _ w) c q1 q2) as [h' [p [S [_ [_ [_ [_ [U Q]]]]]]]].
    { intros i ->. apply get_some, I3. exact (nth_error_In _ _ E). }
    rewrite S. apply add_path; [exact I | exact U|]. intros i Hi. destruct c as [c|]; [|congruence].
    destruct Q as [j [x [y [J [Nj [_ [Yj _]]]]]]]. rewrite J in Hi. injection Hi as <-. apply get_lt in Yj. unfold SteerModel.get in Nj. apply nth_error_None in Nj. lia.
  - destruct (nth_error (paths _ _ _ _ w) k) as [p|] eqn:E; [|split; [exact I | apply keeps_refl]]. unfold copy_path.
    destruct (copy_set fn rhs other (heap _ _ _ _ w) (s_cons _ p)) as [h' c'] eqn:C.
    destruct (copy_set_fresh _ _ _ _ (fun i Hi => I2 i (own_nth _ _ _ _ E Hi)) C) as [U F]. apply add_path; [exact I | exact U | exact F].
  - destruct O.
  - destruct (nth_error (paths _ _ _ _ w) k) as [p|] eqn:E; [|split; [exact I | apply keeps_refl]].
    unfold SteerModel.eval_path. destruct (s_cons _ p) as [i|] eqn:Ci; [|cbn [snd]; apply only_heap; [exact I | apply unchanged_refl | exact I3]].
    destruct (get (heap _ _ _ _ w) i) as [c|] eqn:Ec; [|cbn [snd]; apply only_heap; [exact I | apply unchanged_refl | exact I3]]. cbn [snd]. split.
    + split; cbn [paths heap methods]; [exact I1 | |]; intros j H; rewrite set_length; auto.
    + split; [exists []; rewrite app_nil_r; reflexivity|]. intros j d Hj Ed. cbn [heap]. destruct (Nat.eq_dec i j) as [<-|Ne].
      * exists (rhs_at_param c s). split; [apply get_set_same; exact (get_lt _ _ _ Ec)|]. rewrite Ec in Ed. injection Ed as <-. apply same_at_eval.
      * exists d. split; [rewrite get_set_other by exact Ne; exact Ed | intros u; reflexivity].
Qed.
Lemma inv_empty : inv empty.
Proof. split; cbn; [constructor | intros i [] | intros i []]. Qed.
Lemma keeps_value w w' k s x : inv w -> keeps w w' -> value w k s = Some x -> value w' k s = Some x.
Proof.
  intros I [[ps Eps] K]. unfold SteerModel.value. destruct (nth_error (paths _ _ _ _ w) k) as [p|] eqn:E; [|discriminate].
  assert (E' : nth_error (paths _ _ _ _ w') k = Some p) by (rewrite Eps, nth_error_app1 by (apply nth_error_Some; congruence); exact E).
  rewrite E'. intros [= <-]. f_equal. unfold SteerModel.eval_path. destruct (s_cons _ p) as [i|] eqn:C; [|reflexivity].
  pose proof (own_nth _ _ _ _ E C) as O. destruct (get_some _ _ (inv_paths _ I _ O)) as [c Ec]. destruct (K i c O Ec) as [c' [Ec' S]].
  rewrite Ec, Ec'. cbn [fst]. rewrite S. reflexivity.
Qed.
Lemma history_keeps w os w' : history w os w' -> inv w -> inv w' /\ forall k s x, value w k s = Some x -> value w' k s = Some x.
Proof.
  induction 1 as [w|w o os w' O H IH]; intros I; [split; [exact I | auto]|].
  destruct (step _ _ I O) as [I' K]. destruct (IH I') as [I'' V]. split; [exact I''|]. intros k s x E. apply V. exact (keeps_value _ _ _ _ _ I K E).
Qed.
(* Once made, a path evaluates to the same configurations for ever: whatever is
   evaluated, steered, copied or changed in the constraints of the problem and
   of the steering methods in between. *)
Theorem C95_independent os w os' w' k s x : history empty os w -> history w os' w' -> value w k s = Some x -> value w' k s = Some x.
Proof. intros H H'. destruct (history_keeps _ _ _ H inv_empty) as [I _]. apply (history_keeps _ _ _ H' I). Qed.
(* A copy of a path or of a steering method gives the same configurations. *)
Theorem C95_copy os w k p s x : history empty os w -> nth_error (paths _ _ _ _ w) k = Some p -> value w k s = Some x ->
  value (run w (CopyPath _ _ _ _ k)) (length (paths _ _ _ _ w)) s = Some x.
Proof.
  intros H E V. destruct (history_keeps _ _ _ H inv_empty) as [I _]. cbn [SteerModel.run]. rewrite E. unfold copy_path, copy_set. unfold SteerModel.value in *. rewrite E in V.
  destruct (s_cons _ p) as [i|] eqn:C.
  - destruct (get_some _ _ (inv_paths _ I _ (own_nth _ _ _ _ E C))) as [c Ec]. rewrite Ec. cbn [paths heap]. rewrite nth_error_app2, Nat.sub_diag by lia. cbn [nth_error].
    injection V as <-. f_equal. unfold SteerModel.eval_path. cbn [s_cons s_init]. rewrite C, Ec, get_app_new. reflexivity.
  - cbn [paths heap]. rewrite nth_error_app2, Nat.sub_diag by lia. cbn [nth_error]. injection V as <-. f_equal. unfold SteerModel.eval_path. cbn [s_cons]. rewrite C. reflexivity.
Qed.
End Absorbing.
End Props.

(* -------------------------------------------------------------- a concrete robot *)
(* a point of the plane whose height is constrained to the right hand side *)
Definition pt := (R * R)%type.
Definition demo_rhs_of (_ : unit) (q : pt) : R := snd q.
Definition demo_rhs_at (_ : unit) (_ : R) (r : R) : R := r.
Definition demo_project (_ : unit) (r : R) (_ : line_search) (q : pt) : bool * pt := (true, (fst q, r)).
Definition demo_other (_ : unit) (q : pt) : bool * pt := (true, q).
Definition demo_interpolate (a b : pt) (u : R) : pt := (fst a + u * (fst b - fst a), snd a + u * (snd b - snd a)).
Definition demo_distance (a b : pt) : R := Rabs (fst b - fst a) + Rabs (snd b - snd a).
Definition level (y : R) : cset unit R unit := {| c_proj := Some {| p_fn := tt; p_rhs := y; p_ls := Constant |}; c_before := tt; c_after := tt |}.
Notation demo_run := (run pt unit R unit demo_rhs_of demo_rhs_at demo_project demo_other demo_interpolate demo_distance).
Notation demo_value := (value pt unit R unit demo_rhs_at demo_project demo_other demo_interpolate).
Definition prefix : list (op pt unit R unit) :=
  [NewSet _ _ _ _ (level 5); NewMethod _ _ _ _; SetConstraints _ _ _ _ 0%nat (Some 0%nat); Steer _ _ _ _ 0%nat (0, 1) (2, 1)].
Definition later : list (op pt unit R unit) :=
  [SetRhs _ _ _ _ 0%nat 7; Eval _ _ _ _ 0%nat 1; CopyPath _ _ _ _ 0%nat; CopyMethod _ _ _ _ 0%nat; Steer _ _ _ _ 1%nat (0, 3) (1, 4)].
Notation start := (empty pt unit R unit).
Lemma demo_distance_2 : demo_distance (0, 1) (2, 1) = 2.
Proof. unfold demo_distance. cbn [fst snd]. replace (2 - 0) with 2 by lra. replace (1 - 1) with 0 by lra. rewrite Rabs_R0, Rabs_right by lra. lra. Qed.
(* the hypotheses of [C95_independent] are met: the right hand side of the
   problem changes, paths are evaluated, copied and made, and the first path
   still goes through (1, 1) at 1. *)
Example history_demo :
  history pt unit R unit demo_rhs_of demo_rhs_at demo_project demo_other demo_interpolate demo_distance start prefix (fold_left demo_run prefix start) /\
  history pt unit R unit demo_rhs_of demo_rhs_at demo_project demo_other demo_interpolate demo_distance (fold_left demo_run prefix start) later
    (fold_left demo_run later (fold_left demo_run prefix start)) /\
  demo_value (fold_left demo_run prefix start) 0 1 = Some (true, (1, 1)) /\
  demo_value (fold_left demo_run later (fold_left demo_run prefix start)) 0 1 = Some (true, (1, 1)).
Proof.
  assert (H1 : history pt unit R unit demo_rhs_of demo_rhs_at demo_project demo_other demo_interpolate demo_distance start prefix (fold_left demo_run prefix start)).
  { unfold prefix. repeat (eapply history_cons; [cbn; try exact I; try lia|]). apply history_nil. }
  assert (H2 : history pt unit R unit demo_rhs_of demo_rhs_at demo_project demo_other demo_interpolate demo_distance (fold_left demo_run prefix start) later (fold_left demo_run later (fold_left demo_run prefix start))).
  { unfold later. repeat (eapply history_cons; [cbn; try exact I; try lia|]). apply history_nil. }
  assert (V : demo_value (fold_left demo_run prefix start) 0 1 = Some (true, (1, 1))).
  { cbn. rewrite demo_distance_2. unfold path_at. cbn [s_first s_last s_init s_end]. destruct (reqb_spec 1 0); [lra|]. destruct (reqb_spec (2 - 0) 0); [lra|]. destruct (reqb_spec 1 2); [lra|].
    cbn. unfold demo_other. do 3 f_equal. field. }
  split; [exact H1|]. split; [exact H2|]. split; [exact V|].
  exact (C95_independent pt unit R unit demo_rhs_of demo_rhs_at demo_project demo_other demo_interpolate demo_distance (fun _ _ _ _ => eq_refl) _ _ _ _ _ _ _ H1 H2 V).
Qed.
(* A copy of a path which is given a constraint set shares it with the giver:
   the configurations of the copy change with the set. *)
Theorem C95_shared_refuted :
  let w := fold_left demo_run (prefix ++ [NewSet _ _ _ _ (level 1); CopyPathWith _ _ _ _ 0%nat 3%nat]) start in
  exists k, demo_value w k 0 = Some (true, (0, 1)) /\ demo_value (demo_run w (SetRhs _ _ _ _ 3%nat 9)) k 0 = Some (true, (0, 9)).
Proof.
  exists 1%nat. split; cbn; unfold path_at; cbn [s_first s_last s_init s_end copy_path_with]; destruct (reqb_spec 0 0); try lra; reflexivity.
Qed.
(* both cases of [C95_ends] and [C95_ends_refuted] occur: from (0, 1) the path
   reaches (2, 1) but not (2, 3) *)
Example reachable_end : let x := level 5 in
  fixed_by pt unit R unit demo_rhs_of demo_rhs_at demo_project demo_other x (0, 1) (0, 1) 0 /\
  fixed_by pt unit R unit demo_rhs_of demo_rhs_at demo_project demo_other x (0, 1) (2, 1) (demo_distance (0, 1) (2, 1)).
Proof.
  intros x. assert (F : forall q s, snd q = 1 -> fixed_by pt unit R unit demo_rhs_of demo_rhs_at demo_project demo_other x (0, 1) q s).
  { intros [a b] s E [[[[] r l]|] bf af] [_ [_ P]]; cbn in P; [|contradiction]. destruct P as [_ [-> _]]. cbn in E. subst b. reflexivity. }
  split; apply F; reflexivity.
Qed.
Example unreachable_end :
  honest pt unit R demo_project (fun _ r q => snd q = r) /\ ~ snd (2, 3) = demo_rhs_at tt 4 (demo_rhs_of tt (0, 1)).
Proof. split; [intros f r l q q' [= <-]; reflexivity | cbn; lra]. Qed.

Print Assumptions C95_straight.
Print Assumptions C95_ends.
Print Assumptions C95_ends_refuted.
Print Assumptions C95_independent.
Print Assumptions C95_copy.
Print Assumptions C95_shared_refuted.
