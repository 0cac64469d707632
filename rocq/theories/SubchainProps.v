(* C102 *)
From Verif Require Import Base QcTac PathModel SubchainModel SubchainSpec.
Open Scope nat_scope.

Section S.
Context {A : Type}.

Lemma cardinal_indices l : cardinal l = length (indices l).
Proof.
  induction l as [|[s n] l IH]; [reflexivity|]. cbn [cardinal fold_right snd indices flat_map].
  rewrite app_length, seq_length. fold (indices l). fold (cardinal l). lia.
Qed.
Lemma nth_error_firstn_lt (q : list A) n k : k < n -> nth_error (firstn n q) k = nth_error q k.
Proof.
  revert n q. induction k as [|k IH]; intros [|n] [|x q] L; try lia; try reflexivity.
  cbn [firstn nth_error]. apply IH. lia.
Qed.
Lemma nth_error_skipn_add (q : list A) s k : nth_error (skipn s q) k = nth_error q (s + k).
Proof.
  revert q. induction s as [|s IH]; intros [|x q]; try reflexivity; [now destruct k|].
  cbn [skipn nth_error Nat.add]. apply IH.
Qed.
Lemma nth_error_firstn_skipn (q : list A) s n k :
  k < n -> nth_error (firstn n (skipn s q)) k = nth_error q (s + k).
Proof. intros L. rewrite nth_error_firstn_lt by exact L. apply nth_error_skipn_add. Qed.
Lemma rview_selects l (q : list A) :
  within l (length q) -> starts_in l (length q) -> exists v, rview A l q = Ok v /\ selects l q v.
Proof.
  induction l as [|[s n] l IH]; intros W S.
  - exists []. split; [reflexivity|]. split; [reflexivity|]. intros k i H. destruct k; discriminate.
  - destruct IH as (v & E & L & N).
    { intros i Hi. apply W. apply in_or_app. now right. }
    { intros a b Hb. apply (S a b). now right. }
    assert (s + n <= length q) as B.
    { destruct n; [specialize (S s 0 (or_introl eq_refl)); lia|].
      specialize (W (s + n)). cut (s + n < length q); [lia|]. apply W.
      apply in_or_app. left. apply in_seq. lia. }
    cbn [rview]. rewrite (proj2 (Nat.leb_le _ _) B), E. cbn [bind].
    eexists. split; [reflexivity|].
    assert (length (firstn n (skipn s q)) = n) as Ln by (rewrite firstn_length, skipn_length; lia).
    split.
    + rewrite app_length, Ln, L. cbn [indices flat_map]. rewrite app_length, seq_length. reflexivity.
    + intros k i H. cbn [indices flat_map] in H. destruct (Nat.lt_ge_cases k n) as [Hk|Hk].
      * rewrite nth_error_app1 in H by (rewrite seq_length; exact Hk).
        rewrite nth_error_app1 by (rewrite Ln; exact Hk).
        rewrite (nth_error_nth' _ 0) in H by (rewrite seq_length; exact Hk).
        rewrite seq_nth in H by exact Hk. injection H as <-.
        apply nth_error_firstn_skipn. exact Hk.
      * rewrite nth_error_app2 in H by (rewrite seq_length; exact Hk).
        rewrite nth_error_app2 by (rewrite Ln; exact Hk).
        rewrite seq_length in H. rewrite Ln. apply N. exact H.
Qed.

Variable interp : list A -> list A -> Qc -> list A.
Variables (o : path (list A)) (n : nat) (cs vs : list segment).
Hypothesis W : within cs n.
Hypothesis W0 : starts_in cs n.
Notation P := (create A o n cs vs).

(* The path has the time range of the original one, and the sizes of the
   selections. *)
Theorem C102_shape :
  tr (s_hdr A P) = timeRange o /\ s_size A P = length (indices cs) /\ s_dsize A P = length (indices vs).
Proof.
  split; [reflexivity|]. split; apply cardinal_indices.
Qed.

(* At each time, its value is the selection of the value of the original path;
   it fails when the original path does. *)
Theorem C102_eval t :
  (forall q, eval _ interp o t = Ok (Some q) -> length q = n ->
     exists v, eval_sub A interp (copy A P) t = Ok (Some v) /\ selects cs q v) /\
  (eval _ interp o t = Ok None -> eval_sub A interp (copy A P) t = Ok None).
Proof.
  unfold eval_sub, compute_sub, copy. cbn [s_hdr create s_buf s_osize s_view s_orig].
  rewrite Nat.eqb_refl. cbn [param_at tp mk_hdr]. split.
  - intros q -> Hq. destruct (rview_selects cs q) as (v & E & S); [rewrite Hq; exact W|rewrite Hq; exact W0|].
    exists v. cbn [extract_dofs bind]. rewrite E. split; [reflexivity|exact S].
  - intros ->. reflexivity.
Qed.

(* The same after a time parameterization, which applies on top of that of the
   original path. *)
Theorem C102_retimed f I t :
  tr (s_hdr A (retime A P f I)) = I /\
  (forall q, eval _ interp o (f t) = Ok (Some q) -> length q = n ->
     exists v, eval_sub A interp (retime A P f I) t = Ok (Some v) /\ selects cs q v) /\
  (eval _ interp o (f t) = Ok None -> eval_sub A interp (retime A P f I) t = Ok None).
Proof.
  split; [reflexivity|].
  unfold eval_sub, compute_sub, retime. cbn [s_hdr create s_buf s_osize s_view s_orig].
  rewrite Nat.eqb_refl. cbn [param_at tp mk_hdr set_tp set_tr]. split.
  - intros q -> Hq. destruct (rview_selects cs q) as (v & E & S); [rewrite Hq; exact W|rewrite Hq; exact W0|].
    exists v. cbn [extract_dofs bind]. rewrite E. split; [reflexivity|exact S].
  - intros ->. reflexivity.
Qed.

(* Ends *)
Theorem C102_ends :
  (forall q, initial _ interp o = Ok (Some q) -> length q = n ->
     exists v, initial_sub A interp P = Ok (Some v) /\ selects cs q v) /\
  (forall q, end_ _ interp o = Ok (Some q) -> length q = n ->
     exists v, end_sub A interp P = Ok (Some v) /\ selects cs q v).
Proof.
  split; intros q E Hq; unfold initial_sub, end_sub; cbn [create s_orig s_view]; rewrite E; cbn [extract_dofs bind];
  (destruct (rview_selects cs q) as (v & Ev & S); [rewrite Hq; exact W|rewrite Hq; exact W0|]);
  exists v; rewrite Ev; split; try reflexivity; exact S.
Qed.
End S.

(* The copy with constraints has the constraints and the range of the path, but
   it cannot be evaluated: the buffer for the configuration of the original
   path is not copied. *)
Theorem C102_constrained_refuted : exists (o : path (list Qc)) (cs : list segment) (c : constr (list Qc)) t v,
  let interp := fun a b _ => a in
  let P := create Qc o 2 cs cs in
  eval_sub Qc interp P t = Ok (Some v) /\ c_apply c t v = Some v /\
  tr (s_hdr Qc (copy_with Qc P c)) = tr (s_hdr Qc P) /\
  eval_sub Qc interp (copy_with Qc P c) t = UB.
Proof.
  exists (Straight (mk_hdr (Q2Qc 0, Q2Qc 1) None) [Q2Qc 1; Q2Qc 2] [Q2Qc 3; Q2Qc 4]), [(1, 1)],
    (mkC (fun _ q => Some q) (fun _ _ => true)), (Q2Qc 0), [Q2Qc 2].
  cbv zeta. repeat split.
Qed.

(* Coordinates 2 and 0 of a path in dimension 3, retimed twice as fast. *)
Example C102_example :
  let interp (a b : list Qc) (u : Qc) := map (fun '(x, y) => (x + u * (y - x))%Qc) (combine a b) in
  let z := Q2Qc 0 in let two := Q2Qc 2 in
  let o := Straight (mk_hdr (z, two) None) [z; z; Q2Qc 4] [two; Q2Qc 5; z] in
  let cs := [(2, 1); (0, 1)] in
  within cs 3 /\ starts_in cs 3 /\ indices cs = [2; 0] /\
  eval_sub Qc interp (create Qc o 3 cs [(0, 1)]) (Q2Qc 1) = Ok (Some [two; Q2Qc 1]) /\
  eval_sub Qc interp (retime Qc (create Qc o 3 cs [(0, 1)]) (fun t => (two * t)%Qc) (z, Q2Qc 1)) (Q2Qc (1 # 2))
    = Ok (Some [two; Q2Qc 1]) /\
  end_sub Qc interp (create Qc o 3 cs [(0, 1)]) = Ok (Some [z; two]).
Proof.
  cbv zeta. split; [intros i [<-|[<-|[]]]; lia|].
  split; [intros s k [H|[H|[]]]; injection H as <- <-; lia|].
  repeat split; vm_compute; reflexivity.
Qed.

Print Assumptions C102_shape.
Print Assumptions C102_eval.
Print Assumptions C102_retimed.
Print Assumptions C102_ends.
Print Assumptions C102_constrained_refuted.
