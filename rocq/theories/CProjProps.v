(* C93: application, optimization and settings of configuration projectors;
   C94: removal and restoration of explicit variables. *)
From Coq Require Import Reals List Bool Lra Lia.
From Verif Require Import Base XReal CProjModel.
Import ListNotations.
Open Scope R_scope.

Section Projector.
Variables config system constraint vector : Type.
Variable satisfied : solver system -> config -> bool.
Variable solve : line_search -> bool -> solver system -> config -> res (status * config).
Variable set_rhs_config : system -> constraint -> config -> option system.
Variable set_rhs : system -> constraint -> vector -> option system.
Notation apply := (apply config system satisfied solve).
Notation optimize := (optimize config system satisfied solve).
Notation right_hand_side_config := (right_hand_side_config config system constraint set_rhs_config).
Notation right_hand_side := (right_hand_side system constraint vector set_rhs).
Notation run := (run system).
Notation proj := (projector system).

(* What the solver promises: success means that the constraints are satisfied.
   Whether a configuration satisfies them does not depend on the number of
   iterations. *)
Definition honest : Prop := forall l o s q q', solve l o s q = Ok (SUCCESS, q') -> satisfied s q' = true.
Definition same_system (s s' : solver system) : Prop :=
  sys s = sys s' /\ last_is_optional s = last_is_optional s' /\
  error_threshold s = error_threshold s' /\ inequality_threshold s = inequality_threshold s'.
Definition iterations_free : Prop := forall s s' q, same_system s s' -> satisfied s q = satisfied s' q.

(* A configuration that satisfies the constraints is left as it is; when true
   is returned the constraints are satisfied; applying again changes nothing. *)
Theorem C93_apply p q : honest ->
  (satisfied (slv p) q = true -> apply p q = (Ok (true, q), p)) /\
  (forall q' p', apply p q = (Ok (true, q'), p') -> satisfied (slv p') q' = true /\ apply p' q' = (Ok (true, q'), p')) /\
  slv (snd (apply p q)) = slv p /\ ls_type (snd (apply p q)) = ls_type p.
Proof.
  intros H. unfold apply. split; [intros E; rewrite E; reflexivity|]. split.
  - intros q' p'. destruct (satisfied (slv p) q) eqn:E; [intros [= <- <-]; rewrite E; auto|].
    destruct (solve (ls_type p) false (slv p) q) as [[st q1]| | |] eqn:S; try discriminate. destruct st; try discriminate. intros [= <- <-].
    cbn [add_success slv ls_type]. rewrite (H _ _ _ _ _ S). auto.
  - destruct (satisfied (slv p) q); [auto|]. destruct (solve (ls_type p) false (slv p) q) as [[[] q1]| | |]; auto.
Qed.
(* It succeeds exactly when the constraints are satisfied or the solver
   succeeds, with the line search that was chosen. *)
Theorem C93_apply_complete p q : satisfied (slv p) q = false ->
  forall st q', solve (ls_type p) false (slv p) q = Ok (st, q') -> fst (apply p q) = Ok (match st with SUCCESS => true | _ => false end, q').
Proof. intros E st q' S. unfold apply. rewrite E, S. destruct st; reflexivity. Qed.

(* The statistics count each call on a configuration that did not satisfy the
   constraints, once: over any history of calls. *)
Fixpoint history (p : proj) (qs : list config) : list (config * res (bool * config)) * proj :=
  match qs with
  | [] => ([], p)
  | q :: qs' => let (r, p1) := apply p q in let (rs, p2) := history p1 qs' in ((q, r) :: rs, p2)
  end.
Definition solved (p : proj) (b : bool) (x : config * res (bool * config)) : bool :=
  negb (satisfied (slv p) (fst x)) && match snd x with Ok (c, _) => Bool.eqb b c | _ => false end.
Theorem C93_statistics qs : forall p rs p', history p qs = (rs, p') ->
  successes p' = (successes p + length (filter (solved p true) rs))%nat /\
  length (failures p') = (length (failures p) + length (filter (solved p false) rs))%nat.
Proof.
  induction qs as [|q qs IH]; intros p rs p'; cbn [history].
  - intros [= <- <-]. cbn. lia.
  - destruct (apply p q) as [r p1] eqn:A. destruct (history p1 qs) as [rs' p2] eqn:Hh. intros [= <- <-]. specialize (IH _ _ _ Hh).
    assert (Sl : slv p1 = slv p).
    { replace p1 with (snd (apply p q)) by (rewrite A; reflexivity). unfold apply. destruct (satisfied (slv p) q); [reflexivity|]. destruct (solve (ls_type p) false (slv p) q) as [[[] ?]| | |]; reflexivity. }
    assert (F : forall b, filter (solved p1 b) rs' = filter (solved p b) rs').
    { intros b. apply filter_ext. intros x. unfold solved. rewrite Sl. reflexivity. }
    rewrite !F in IH. cbn [filter].
    assert (Sv : forall b, solved p b (q, r) = negb (satisfied (slv p) q) && match r with Ok (c, _) => Bool.eqb b c | _ => false end) by reflexivity.
    rewrite !Sv. clear Sv F. unfold apply in A. destruct (satisfied (slv p) q) eqn:E; cbn [negb andb].
    + injection A as <- <-. exact IH.
    + destruct (solve (ls_type p) false (slv p) q) as [[[] q1]| | |]; injection A as <- <-; cbn [add_failure add_success successes failures Bool.eqb length] in *; lia.
Qed.

(* ------------------------------------------------------------ optimization *)
Lemma same_iterations p n : same_system (slv p) (slv (set_max_iterations system p n)).
Proof. repeat split. Qed.
Lemma same_sym s s' : same_system s s' -> same_system s' s.
Proof. intros [A [B [C D]]]. repeat split; congruence. Qed.
Lemma same_trans s1 s2 s3 : same_system s1 s2 -> same_system s2 s3 -> same_system s1 s3.
Proof. intros [A [B [C D]]] [A' [B' [C' D']]]. repeat split; congruence. Qed.
(* The constraints are never lost when true is returned; whatever is returned,
   the projector is as before. *)
Theorem C93_optimize p q n : honest -> iterations_free ->
  (forall r p', optimize p q n = (Ok r, p') -> p' = p) /\
  (satisfied (slv p) q = true -> forall q', fst (optimize p q n) = Ok (true, q') -> satisfied (slv p) q' = true) /\
  (last_is_optional (slv p) = true -> forall q', fst (optimize p q n) = Ok (true, q') -> satisfied (slv p) q = true /\ satisfied (slv p) q' = true) /\
  (last_is_optional (slv p) = true -> satisfied (slv p) q = false -> optimize p q n = (Ok (false, q), p)).
Proof.
  intros H I. unfold optimize. assert (Rs : forall s, set_max_iterations system (set_max_iterations system p s) (max_iterations (slv p)) = p) by (intros s; destruct p as [[] ? ? ?]; reflexivity).
  assert (Rs0 : set_max_iterations system p (max_iterations (slv p)) = p) by (destruct p as [[] ? ? ?]; reflexivity).
  set (p1 := if negb (n =? 0)%nat then set_max_iterations system p n else p).
  assert (Back : set_max_iterations system p1 (max_iterations (slv p)) = p) by (unfold p1; destruct (negb (n =? 0)%nat); [apply Rs | apply Rs0]).
  assert (Sm : same_system (slv p1) (slv p)) by (unfold p1; destruct (negb (n =? 0)%nat); [apply same_sym, same_iterations | repeat split]).
  assert (Key : forall q', fst (match solve (ls_type p1) true (slv p1) q with
       | Ok (st, q'0) => match st with SUCCESS => (Ok (true, q'0), set_max_iterations system p1 (max_iterations (slv p)))
           | INFEASIBLE => (Ok (satisfied (slv (set_max_iterations system p1 (max_iterations (slv p)))) q'0, q'0), set_max_iterations system p1 (max_iterations (slv p)))
           | _ => (Ok (false, q'0), set_max_iterations system p1 (max_iterations (slv p))) end
       | Throw => (Throw, p1) | UB => (UB, p1) | Fuel => (Fuel, p1) end) = Ok (true, q') -> satisfied (slv p) q' = true).
  { intros q'. rewrite Back. destruct (solve (ls_type p1) true (slv p1) q) as [[[] q1]| | |] eqn:S; cbn [fst]; try discriminate.
    - intros [= E <-]. exact E.
    - intros [= <-]. rewrite <- (I _ _ q1 Sm). exact (H _ _ _ _ _ S). }
  split; [|split; [|split]].
  - intros r p'. destruct (negb (last_is_optional (slv p))); [intros [= _ <-]; reflexivity|]. destruct (negb (satisfied (slv p) q)); [intros [= _ <-]; reflexivity|].
    rewrite Back. destruct (solve (ls_type p1) true (slv p1) q) as [[[] q1]| | |]; intros [= _ <-]; reflexivity.
  - intros E q'. destruct (negb (last_is_optional (slv p))); [intros [= <-]; exact E|]. rewrite E. cbn [negb]. apply Key.
  - intros O q'. rewrite O. cbn [negb]. destruct (satisfied (slv p) q) eqn:E; cbn [negb]; [|discriminate]. intros K. split; [reflexivity | exact (Key q' K)].
  - intros O E. rewrite O, E. reflexivity.
Qed.
(* The solver is given the number of iterations asked for, or the default. *)
Theorem C93_optimize_iterations p q n st q' : last_is_optional (slv p) = true -> satisfied (slv p) q = true ->
  forall s, same_system s (slv p) -> max_iterations s = (if Nat.eqb n 0 then max_iterations (slv p) else n) ->
  solve (ls_type p) true s q = Ok (st, q') -> exists b, fst (optimize p q n) = Ok (b, q') /\ (st = SUCCESS -> b = true).
Proof.
  intros O E s [A [B [C D]]] M S. unfold optimize. rewrite O, E. cbn [negb]. assert (Es : slv (if negb (n =? 0)%nat then set_max_iterations system p n else p) = s /\ ls_type (if negb (n =? 0)%nat then set_max_iterations system p n else p) = ls_type p).
  { destruct s as [a m o e i]. cbn in *. destruct (Nat.eqb n 0); cbn; (split; [|reflexivity]); destruct p as [[] ? ? ?]; cbn in *; congruence. }
  destruct Es as [-> ->]. rewrite S. destruct st; cbn [fst]; eexists; split; try reflexivity; congruence.
Qed.
(* If the solver throws, the number of iterations is not restored. *)
Theorem C93_optimize_refuted p q n : last_is_optional (slv p) = true -> satisfied (slv p) q = true -> n <> 0%nat ->
  (forall s, solve (ls_type p) true s q = Throw) ->
  fst (optimize p q n) = Throw /\ max_iterations (slv (snd (optimize p q n))) = n.
Proof.
  intros O E Hn S. unfold optimize. rewrite O, E. cbn [negb]. destruct (Nat.eqb_spec n 0); [contradiction|]. cbn [negb]. rewrite S. split; reflexivity.
Qed.
(* When no constraint is optional nothing is optimized, and true is returned
   even if the constraints are not satisfied. *)
Theorem C93_optimize_returns_refuted p q n : last_is_optional (slv p) = false -> satisfied (slv p) q = false -> fst (optimize p q n) = Ok (true, q).
Proof. intros O _. unfold optimize. rewrite O. reflexivity. Qed.

(* ---------------------------------------------------------------- settings *)
Theorem C93_right_hand_side p c :
  (forall q s, set_rhs_config (sys (slv p)) c q = Some s -> exists p', right_hand_side_config p c q = Ok p' /\ sys (slv p') = s /\ max_iterations (slv p') = max_iterations (slv p) /\ error_threshold (slv p') = error_threshold (slv p) /\ ls_type p' = ls_type p) /\
  (forall q, set_rhs_config (sys (slv p)) c q = None -> right_hand_side_config p c q = Throw) /\
  (forall v s, set_rhs (sys (slv p)) c v = Some s -> exists p', right_hand_side p c v = Ok p' /\ sys (slv p') = s /\ max_iterations (slv p') = max_iterations (slv p) /\ error_threshold (slv p') = error_threshold (slv p) /\ ls_type p' = ls_type p).
Proof.
  unfold right_hand_side_config, right_hand_side. split; [|split].
  - intros q s ->. eexists. repeat split.
  - intros q ->. reflexivity.
  - intros v s ->. eexists. repeat split.
Qed.
(* Setting the right hand side of a constraint that is not there is silently
   ignored. *)
Theorem C93_right_hand_side_refuted p c v : set_rhs (sys (slv p)) c v = None -> right_hand_side p c v = Ok p.
Proof. intros E. unfold right_hand_side. rewrite E. reflexivity. Qed.

(* Line search of each projector: that of the last setting for it, initially
   the default at its creation or that of the projector it was copied from. *)
Theorem C93_line_search (w : world system) :
  (forall l i, nth_error (projectors (run w (DefaultLineSearch system l))) i = nth_error (projectors w) i) /\
  (forall x e n, exists p, projectors (run w (Create system x e n)) = projectors w ++ [p] /\ ls_type p = default_ls w /\
     sys (slv p) = x /\ error_threshold (slv p) = e /\ inequality_threshold (slv p) = e /\ max_iterations (slv p) = n /\ last_is_optional (slv p) = false) /\
  (forall i p, nth_error (projectors w) i = Some p -> projectors (run w (CopyOf system i)) = projectors w ++ [p]) /\
  (forall i j l, option_map (@ls_type system) (nth_error (projectors (run w (LineSearch system i l))) j) =
     if Nat.eqb i j then option_map (fun _ => l) (nth_error (projectors w) j) else option_map (@ls_type system) (nth_error (projectors w) j)).
Proof.
  split; [reflexivity|]. split; [intros x e n; eexists; cbn [run projectors]; repeat split|]. split.
  - intros i p E. cbn [run]. rewrite E. cbn [projectors]. destruct p. reflexivity.
  - intros i j l. cbn [run projectors]. generalize (projectors w) as ps. revert j; induction i as [|i IH]; intros j ps.
    + destruct ps, j; reflexivity.
    + destruct ps as [|p ps]; [cbn [replace]; destruct j as [|j]; [reflexivity|]; cbn; destruct (Nat.eqb i j); reflexivity|].
      destruct j; [reflexivity|]. cbn [replace nth_error Nat.eqb]. apply IH.
Qed.
Theorem C93_threshold (p : proj) e : let p' := set_error_threshold system p e in
  error_threshold (slv p') = e /\ inequality_threshold (slv p') = e /\ sys (slv p') = sys (slv p) /\ max_iterations (slv p') = max_iterations (slv p) /\ last_is_optional (slv p') = last_is_optional (slv p).
Proof. repeat split. Qed.
End Projector.

(* ------------------------------------------------- C94: explicit variables *)
(* segments that do not overlap, within the first n variables *)
Definition proper (b : list segment) (n : nat) : Prop := NoDup (indices b) /\ forall i, In i (indices b) -> (i < n)%nat.
Lemma rank_nth l : forall k i, NoDup l -> nth_error l k = Some i -> rank i l = Some k.
Proof.
  induction l as [|j l IH]; intros [|k] i N E; cbn in E; try discriminate.
  - injection E as ->. cbn. rewrite Nat.eqb_refl. reflexivity.
  - inversion N as [|? ? Hj N']; subst. cbn. destruct (Nat.eqb_spec i j) as [->|_]; [exfalso; apply Hj; exact (nth_error_In _ _ E)|]. rewrite (IH k i N' E). reflexivity.
Qed.
Lemma rank_none i l : rank i l = None <-> ~ In i l.
Proof.
  induction l as [|j l IH]; cbn; [split; [intros _ []|reflexivity]|]. destruct (Nat.eqb_spec i j) as [->|N].
  - split; [discriminate | intros H; exfalso; apply H; left; reflexivity].
  - destruct (rank i l) as [k|]; cbn.
    + split; [discriminate|]. intros H. assert (X : Some k = None) by (apply IH; intros K; apply H; right; exact K). discriminate.
    + split; [|reflexivity]. intros _ [K|K]; [congruence|]. apply IH; auto.
Qed.
Lemma rank_some i l k : rank i l = Some k -> nth_error l k = Some i.
Proof.
  revert k. induction l as [|j l IH]; intros k; cbn; [discriminate|]. destruct (Nat.eqb_spec i j) as [->|N]; [intros [= <-]; reflexivity|].
  destruct (rank i l) as [m|]; [|discriminate]. intros [= <-]. exact (IH m eq_refl).
Qed.
Lemma uncompress_nth b small normal i : (i < length normal)%nat ->
  nth i (uncompress b small normal) 0 = match rank i (indices b) with Some k => nth k small 0 | None => nth i normal 0 end.
Proof.
  intros H. unfold uncompress. set (f := fun i => _). rewrite (nth_indep _ 0 (f 0%nat)) by (rewrite map_length, seq_length; exact H). rewrite map_nth, seq_nth by exact H. reflexivity.
Qed.
Lemma uncompress_length b small normal : length (uncompress b small normal) = length normal.
Proof. unfold uncompress. rewrite map_length. apply seq_length. Qed.
Lemma compress_length b normal : length (compress b normal) = length (indices b).
Proof. apply map_length. Qed.
Lemma compress_nth b normal k i : nth_error (indices b) k = Some i -> nth k (compress b normal) 0 = nth i normal 0.
Proof.
  intros E. unfold compress. assert (H : nth_error (map (fun i => nth i normal 0) (indices b)) k = Some (nth i normal 0)) by (rewrite nth_error_map, E; reflexivity).
  apply nth_error_nth with (d := 0) in H. exact H.
Qed.
(* Restoring then removing gives the vector back; restoring writes the kept
   variables and no other; removing keeps the values. *)
Theorem C94_vector b small normal : proper b (length normal) -> length small = length (indices b) ->
  compress b (uncompress b small normal) = small /\
  length (uncompress b small normal) = length normal /\
  (forall i, (i < length normal)%nat -> ~ In i (indices b) -> nth i (uncompress b small normal) 0 = nth i normal 0) /\
  (forall k i, nth_error (indices b) k = Some i -> nth k (compress b normal) 0 = nth i normal 0 /\ nth i (uncompress b small normal) 0 = nth k small 0) /\
  uncompress b (compress b normal) normal = normal.
Proof.
  intros [N P] L. split; [|split; [apply uncompress_length|split; [|split]]].
  - apply (nth_ext _ _ 0 0); [rewrite compress_length; congruence|]. intros k Hk. rewrite compress_length in Hk.
    destruct (nth_error (indices b) k) as [i|] eqn:E; [|apply nth_error_None in E; lia].
    rewrite (compress_nth b _ k i E), uncompress_nth by (apply P; exact (nth_error_In _ _ E)). rewrite (rank_nth _ _ _ N E). reflexivity.
  - intros i Hi Hn. rewrite uncompress_nth by exact Hi. apply rank_none in Hn. rewrite Hn. reflexivity.
  - intros k i E. split; [apply compress_nth; exact E|]. rewrite uncompress_nth by (apply P; exact (nth_error_In _ _ E)). rewrite (rank_nth _ _ _ N E). reflexivity.
  - apply (nth_ext _ _ 0 0); [apply uncompress_length|]. intros i Hi. rewrite uncompress_length in Hi. rewrite uncompress_nth by exact Hi.
    destruct (rank i (indices b)) as [k|] eqn:E; [|reflexivity]. apply compress_nth. apply rank_some. exact E.
Qed.
(* entry of a matrix *)
Definition entry (m : mat) (i j : nat) : R := nth j (nth i m []) 0.
Lemma nth_mapi {A} (f : nat -> A) n i d : (i < n)%nat -> nth i (map f (seq 0 n)) d = f i.
Proof. intros H. rewrite (nth_indep _ d (f 0%nat)) by (rewrite map_length, seq_length; exact H). rewrite map_nth, seq_nth by exact H. reflexivity. Qed.
Lemma nth_select {A} (l : list nat) (f : nat -> A) k i d : nth_error l k = Some i -> nth k (map f l) d = f i.
Proof. intros E. assert (H : nth_error (map f l) k = Some (f i)) by (rewrite nth_error_map, E; reflexivity). apply nth_error_nth with (d := d) in H. exact H. Qed.
Definition rectangle (m : mat) (r c : nat) : Prop := length m = r /\ forall i, (i < r)%nat -> length (nth i m []) = c.
(* The same for matrices, columns only or rows and columns. *)
Theorem C94_compress_matrix b normal n : proper b n -> forall r, rectangle normal r n ->
  (let m := compress_matrix b normal false in rectangle m r (length (indices b)) /\
     forall i k j, (i < r)%nat -> nth_error (indices b) k = Some j -> entry m i k = entry normal i j) /\
  (r = n -> let m := compress_matrix b normal true in rectangle m (length (indices b)) (length (indices b)) /\
     forall h i k j, nth_error (indices b) h = Some i -> nth_error (indices b) k = Some j -> entry m h k = entry normal i j).
Proof.
  intros [N P] r [Lr Lc]. assert (Row : forall i, (i < r)%nat -> nth i (map (compress b) normal) [] = compress b (nth i normal [])).
  { intros i Hi. rewrite (nth_indep _ [] (compress b [])) by (rewrite map_length; eapply Nat.lt_le_trans; [exact Hi | apply Nat.eq_le_incl; symmetry; exact Lr]). apply map_nth. }
  split; cbv zeta; unfold compress_matrix.
  - split; [split; [rewrite map_length; exact Lr | intros i Hi; rewrite Row by exact Hi; apply compress_length]|].
    intros i k j Hi E. unfold entry. rewrite Row by exact Hi. apply compress_nth. exact E.
  - intros ->. split; [split; [apply map_length|]|].
    + intros h Hh. destruct (nth_error (indices b) h) as [i|] eqn:E; [|apply nth_error_None in E; lia].
      rewrite (nth_select _ _ h i [] E), Row by (apply P; exact (nth_error_In _ _ E)). apply compress_length.
    + intros h i k j Eh Ek. unfold entry. rewrite (nth_select _ _ h i [] Eh), Row by (apply P; exact (nth_error_In _ _ Eh)). apply compress_nth. exact Ek.
Qed.
Theorem C94_uncompress_matrix b small normal n r : proper b n -> rectangle normal r n ->
  (rectangle small r (length (indices b)) ->
   let m := uncompress_matrix b small normal false in rectangle m r n /\
     (forall i k j, (i < r)%nat -> nth_error (indices b) k = Some j -> entry m i j = entry small i k) /\
     (forall i j, (i < r)%nat -> (j < n)%nat -> ~ In j (indices b) -> entry m i j = entry normal i j) /\
     compress_matrix b m false = small) /\
  (r = n -> rectangle small (length (indices b)) (length (indices b)) ->
   let m := uncompress_matrix b small normal true in rectangle m n n /\
     (forall h i k j, nth_error (indices b) h = Some i -> nth_error (indices b) k = Some j -> entry m i j = entry small h k) /\
     (forall i j, (i < n)%nat -> (j < n)%nat -> ~ In i (indices b) \/ ~ In j (indices b) -> entry m i j = entry normal i j) /\
     compress_matrix b m true = small).
Proof.
  intros [N P] [Lr Lc]. split.
  - intros [Sr Sc] m. assert (Row : forall i, (i < r)%nat -> nth i m [] = uncompress b (nth i small []) (nth i normal [])).
    { intros i Hi. unfold m, uncompress_matrix. rewrite nth_mapi by (rewrite Lr; exact Hi). reflexivity. }
    assert (V : forall i, (i < r)%nat -> proper b (length (nth i normal [])) /\ length (nth i small []) = length (indices b)).
    { intros i Hi. rewrite (Lc i Hi), (Sc i Hi). repeat split; assumption. }
    assert (Lm : length m = r) by (unfold m, uncompress_matrix; rewrite map_length, seq_length; exact Lr).
    split; [split; [exact Lm | intros i Hi; rewrite (Row i Hi), uncompress_length; exact (Lc i Hi)]|]. split; [|split].
    + intros i k j Hi E. unfold entry. rewrite (Row i Hi). destruct (V i Hi) as [V1 V2]. apply (C94_vector b _ _ V1 V2). exact E.
    + intros i j Hi Hj Hn. unfold entry. rewrite (Row i Hi). destruct (V i Hi) as [V1 V2]. apply (C94_vector b _ _ V1 V2); [rewrite (Lc i Hi); exact Hj | exact Hn].
    + unfold compress_matrix. apply (nth_ext _ _ [] []); [rewrite map_length; congruence|]. intros i Hi. rewrite map_length, Lm in Hi.
      rewrite (nth_indep _ [] (compress b [])) by (rewrite map_length; eapply Nat.lt_le_trans; [exact Hi | apply Nat.eq_le_incl; symmetry; exact Lm]). rewrite map_nth, (Row i Hi). destruct (V i Hi) as [V1 V2]. apply (C94_vector b _ _ V1 V2).
  - intros -> [Sr Sc] m. assert (Row : forall i, (i < n)%nat -> nth i m [] = match rank i (indices b) with Some k => uncompress b (nth k small []) (nth i normal []) | None => nth i normal [] end).
    { intros i Hi. unfold m, uncompress_matrix. rewrite nth_mapi by (rewrite Lr; exact Hi). reflexivity. }
    assert (V : forall i k, (i < n)%nat -> (k < length (indices b))%nat -> proper b (length (nth i normal [])) /\ length (nth k small []) = length (indices b)).
    { intros i k Hi Hk. rewrite (Lc i Hi), (Sc k Hk). repeat split; assumption. }
    assert (Rk : forall i k, rank i (indices b) = Some k -> (k < length (indices b))%nat).
    { intros i k E. apply rank_some in E. apply nth_error_Some. congruence. }
    assert (Lm : length m = n) by (unfold m, uncompress_matrix; rewrite map_length, seq_length; exact Lr).
    assert (Ent : forall h i k j, nth_error (indices b) h = Some i -> nth_error (indices b) k = Some j -> entry m i j = entry small h k).
    { intros h i k j Eh Ek. assert (Hi : (i < n)%nat) by (apply P; exact (nth_error_In _ _ Eh)). unfold entry. rewrite (Row i Hi), (rank_nth _ _ _ N Eh).
      destruct (V i h Hi) as [V1 V2]; [apply nth_error_Some; congruence|]. apply (C94_vector b _ _ V1 V2). exact Ek. }
    split; [split; [exact Lm|]|split; [exact Ent | split]].
    + intros i Hi. rewrite (Row i Hi). destruct (rank i (indices b)); [rewrite uncompress_length|]; exact (Lc i Hi).
    + intros i j Hi Hj Hn. unfold entry. rewrite (Row i Hi). destruct (rank i (indices b)) as [k|] eqn:E; [|reflexivity].
      destruct (V i k Hi (Rk _ _ E)) as [V1 V2]. destruct Hn as [Hn|Hn]; [exfalso; apply rank_none in Hn; congruence|].
      apply (C94_vector b _ _ V1 V2); [rewrite (Lc i Hi); exact Hj | exact Hn].
    + assert (Rm : rectangle m n n).
      { split; [exact Lm|]. intros i Hi. rewrite (Row i Hi). destruct (rank i (indices b)); [rewrite uncompress_length|]; exact (Lc i Hi). }
      destruct (C94_compress_matrix b m n (conj N P) n Rm) as [_ C]. destruct (C eq_refl) as [[C1 C2] C3].
      apply (nth_ext _ _ [] []); [congruence|]. intros h Hh. rewrite C1 in Hh.
      apply (nth_ext _ _ 0 0); [rewrite (C2 h Hh), (Sc h Hh); reflexivity|]. intros k Hk. rewrite (C2 h Hh) in Hk.
      destruct (nth_error (indices b) h) as [i|] eqn:Eh; [|apply nth_error_None in Eh; lia]. destruct (nth_error (indices b) k) as [j|] eqn:Ek; [|apply nth_error_None in Ek; lia].
      specialize (C3 h i k j Eh Ek). unfold entry in C3 at 1. rewrite C3. exact (Ent h i k j Eh Ek).
Qed.

(* ---------------------------------------------------------------- examples *)
(* one variable, constraint x = 1, a solver that reaches it in three
   iterations at most *)
Definition sat1 (s : solver unit) (q : nat) : bool := Nat.eqb q 1.
Definition solve1 (l : line_search) (o : bool) (s : solver unit) (q : nat) : res (status * nat) :=
  if Nat.ltb (max_iterations s) 3 then Ok (MAX_ITERATION_REACHED, q) else Ok (SUCCESS, 1%nat).
Example solver_honest : honest nat unit sat1 solve1 /\ iterations_free nat unit sat1.
Proof.
  split; [|intros ? ? ? _; reflexivity]. intros l o s q q'. unfold solve1. destruct (Nat.ltb (max_iterations s) 3); [discriminate|]. intros [= <-]. reflexivity.
Qed.
Definition proj1 (n : nat) : projector unit := create unit {| default_ls := Constant; projectors := [] |} tt 1 n.
Example proj1_apply : fst (apply nat unit sat1 solve1 (proj1 5) 7%nat) = Ok (true, 1%nat) /\ fst (apply nat unit sat1 solve1 (proj1 2) 7%nat) = Ok (false, 7%nat).
Proof. split; reflexivity. Qed.
Example segments : proper [(0, 2); (4, 1)]%nat 6 /\ compress [(0, 2); (4, 1)]%nat [1; 2; 3; 4; 5; 6] = [1; 2; 5] /\
  uncompress [(0, 2); (4, 1)]%nat [7; 8; 9] [1; 2; 3; 4; 5; 6] = [7; 8; 3; 4; 9; 6].
Proof. split; [|split; reflexivity]. split; [repeat constructor; cbn; lia|]. intros i [<-|[<-|[<-|[]]]]; cbn; lia. Qed.

Print Assumptions C93_apply.
Print Assumptions C93_apply_complete.
Print Assumptions C93_statistics.
Print Assumptions C93_optimize.
Print Assumptions C93_optimize_iterations.
Print Assumptions C93_optimize_refuted.
Print Assumptions C93_optimize_returns_refuted.
Print Assumptions C93_right_hand_side.
Print Assumptions C93_right_hand_side_refuted.
Print Assumptions C93_line_search.
Print Assumptions C93_threshold.
Print Assumptions C94_vector.
Print Assumptions C94_compress_matrix.
Print Assumptions C94_uncompress_matrix.
