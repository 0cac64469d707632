(* C33: problem parameters are type safe. *)
From Verif Require Import Base ContainerModel ContainerSpec ContainerProps ParamModel ParamSpec.

Lemma ptype_eqb_iff a b : ptype_eqb a b = true <-> a = b.
Proof. destruct a, b; cbn; split; (reflexivity || discriminate). Qed.
Lemma ptype_eqb_refl a : ptype_eqb a a = true.
Proof. apply ptype_eqb_iff; reflexivity. Qed.

Definition wrun (h : list pop) : world := fold_right (fun o w => p_step w o) w0 h.
Lemma wrun_rev l : p_run l = wrun (rev l).
Proof.
  unfold p_run, wrun. rewrite <- (rev_involutive l) at 1. generalize (rev l) as h.
  intro h. generalize w0. induction h as [|o h IH]; intro w; [reflexivity|].
  cbn [rev fold_right]. rewrite fold_left_app, IH. reflexivity.
Qed.

Notation ltn := Nat.ltb.
Notation sorted m := (increasing ltn (map fst m)).
Lemma declare_add w d : descs (declareParameter w d) = c_add ltn (descs w) (dname d) d.
Proof. reflexivity. Qed.
Lemma wrun_sorted h : sorted (descs (wrun h)) /\ forall pb, sorted (pbs (wrun h) pb).
Proof.
  induction h as [|o h [IH1 IH2]]; [split; [|intro]; constructor|].
  unfold wrun in *; cbn [fold_right]. set (w := fold_right _ _ _) in *.
  destruct o as [d|pb n v]; cbn [p_step].
  - split; [rewrite declare_add; apply add_inc; [apply nat_total|exact IH1]|exact IH2].
  - unfold setParameter. destruct (parameterDescription w n) as [d| | |]; try (split; assumption).
    destruct (negb _); [split; assumption|]. cbn [fst descs pbs]. split; [exact IH1|].
    intro k. unfold upd. destruct (Nat.eqb k pb); [apply add_inc; [apply nat_total|apply IH2]|apply IH2].
Qed.

Lemma find_add_nat {V} (m : cmap (K:=nat) (V:=V)) k v k' : sorted m ->
  mfind ltn k' (c_add ltn m k v) = if Nat.eqb k k' then Some v else mfind ltn k' m.
Proof.
  intro H. rewrite (find_add ltn nat_total) by exact H.
  destruct (Nat.eqb_spec k k') as [->|E].
  - rewrite Nat.ltb_irrefl; reflexivity.
  - destruct (Nat.ltb_spec k k'); [reflexivity|]. destruct (Nat.ltb_spec k' k); [reflexivity|lia].
Qed.
Lemma pd_find w n : parameterDescription w n = match mfind ltn n (descs w) with Some d => Ok d | None => Throw end.
Proof. unfold parameterDescription, c_has, c_get. destruct (mfind ltn n (descs w)); reflexivity. Qed.

Lemma set_descs w pb n v : descs (fst (setParameter w pb n v)) = descs w.
Proof.
  unfold setParameter. destruct (parameterDescription w n); try reflexivity.
  destruct (negb _); reflexivity.
Qed.
Lemma declared_find n h r : declared n h r <-> mfind ltn n (descs (wrun h)) = r.
Proof.
  revert r; induction h as [|o h IH]; intro r.
  - cbn; split; intro H; [inversion H; reflexivity|subst; constructor].
  - destruct (wrun_sorted h) as [HS _].
    unfold wrun in *; cbn [fold_right]. set (w := fold_right _ _ _) in *.
    destruct o as [d|pb m v]; cbn [p_step].
    + rewrite declare_add, find_add_nat by exact HS. split.
      * intro H; inversion H; subst.
        -- rewrite Nat.eqb_refl; reflexivity.
        -- destruct (Nat.eqb_spec (dname d) n); [contradiction|apply IH; assumption].
      * destruct (Nat.eqb_spec (dname d) n); intro H.
        -- subst r; constructor; assumption.
        -- apply declared_other; [assumption|apply IH; exact H].
    + rewrite set_descs. rewrite <- IH. split; [intro H; inversion H; assumption|constructor; assumption].
Qed.

Lemma accepted_set h pb n v :
  (accepted n v h /\ setParameter (wrun h) pb n v =
     (mkW (descs (wrun h)) (upd (pbs (wrun h)) pb (c_add ltn (pbs (wrun h) pb) n v)), false)) \/
  (~ accepted n v h /\ setParameter (wrun h) pb n v = (wrun h, true)).
Proof.
  unfold setParameter. rewrite pd_find. destruct (mfind ltn n (descs (wrun h))) as [d|] eqn:E.
  - assert (HD := proj2 (declared_find n h _) E).
    destruct (ptype_eqb (dtype d) (ptype_of v)) eqn:T; cbn [negb].
    + left; split; [exists d; split; [exact HD|apply ptype_eqb_iff; exact T]|reflexivity].
    + right; split; [|reflexivity]. intros [d' [H1 H2]].
      apply declared_find in H1. rewrite E in H1; inversion H1; subst d'.
      apply ptype_eqb_iff in H2; rewrite T in H2; discriminate.
  - right; split; [|reflexivity]. intros [d' [H1 H2]].
    apply declared_find in H1. rewrite E in H1; discriminate.
Qed.

Lemma last_find pb n h r : last_set pb n h r <-> mfind ltn n (pbs (wrun h) pb) = r.
Proof.
  revert r; induction h as [|o h IH]; intro r.
  - cbn; split; intro H; [inversion H; reflexivity|subst; constructor].
  - destruct (wrun_sorted h) as [_ HS].
    change (wrun (o :: h)) with (p_step (wrun h) o).
    destruct o as [d|k m v]; cbn [p_step].
    + change (pbs (declareParameter (wrun h) d)) with (pbs (wrun h)). rewrite <- IH.
      split; [intro H; inversion H; assumption|constructor; assumption].
    + destruct (accepted_set h k m v) as [[HA ->]|[HA ->]]; cbn [fst pbs].
      * unfold upd. split.
        -- intro H; inversion H; subst.
           ++ rewrite Nat.eqb_refl, find_add_nat by apply HS. rewrite Nat.eqb_refl; reflexivity.
           ++ contradiction.
           ++ destruct (Nat.eqb_spec pb k) as [->|N]; [|apply IH; assumption].
              rewrite find_add_nat by apply HS.
              destruct (Nat.eqb_spec m n) as [->|N]; [|apply IH; assumption].
              match goal with G : _ \/ _ |- _ => destruct G; contradiction end.
        -- destruct (Nat.eqb_spec pb k) as [->|N].
           ++ rewrite find_add_nat by apply HS.
              destruct (Nat.eqb_spec m n) as [->|N]; intro H.
              ** subst r; apply last_here; exact HA.
              ** apply last_other; [right; exact N|apply IH; exact H].
           ++ intro H; apply last_other; [left; auto|apply IH; exact H].
      * rewrite <- IH. split; [|intro H; apply last_rejected; assumption].
        intro H; inversion H; subst; [contradiction| |]; assumption.
Qed.

Lemma declared_in n h d : declared n h (Some d) -> In (PDeclare d) h /\ dname d = n.
Proof.
  induction h as [|o h IH]; intro H; inversion H; subst.
  - split; [left; reflexivity|reflexivity].
  - match goal with G : declared _ h _ |- _ => destruct (IH G); split; [right|]; assumption end.
  - match goal with G : declared _ h _ |- _ => destruct (IH G); split; [right|]; assumption end.
Qed.
Lemma last_type pb n h v : last_set pb n h (Some v) ->
  exists d, In (PDeclare d) h /\ dname d = n /\ dtype d = ptype_of v.
Proof.
  revert v; induction h as [|o h IH]; intros v H; inversion H; subst;
    try (match goal with G : last_set _ _ h _ |- _ => destruct (IH _ G) as [dd [? [? ?]]]; exists dd; split; [right; assumption|auto] end).
  match goal with G : accepted _ _ _ |- _ => destruct G as [d [HD HT]] end.
  destruct (declared_in _ _ _ HD). exists d; split; [right; assumption|auto].
Qed.
Lemma in_declared n h d : In (PDeclare d) h -> dname d = n -> exists d', declared n h (Some d').
Proof.
  intros H E; induction h as [|o h IH]; [destruct H|]. destruct o as [d0|pb m v].
  - destruct (Nat.eq_dec (dname d0) n) as [E0|E0].
    + exists d0; constructor; exact E0.
    + destruct H as [H|H]; [inversion H; subst; contradiction|].
      destruct (IH H) as [d' HD]; exists d'; apply declared_other; assumption.
  - destruct H as [H|H]; [discriminate|]. destruct (IH H) as [d' HD]; exists d'; constructor; exact HD.
Qed.

(* setParameter stores the value exactly when the name is declared with the
   type of the value; otherwise it throws and nothing changes. *)
Theorem C33_set : forall l pb n v,
  (accepted n v (rev l) /\ exists w, setParameter (p_run l) pb n v = (w, false) /\
     getParameter w pb n = Ok v /\
     (forall pb' n', pb' <> pb \/ n' <> n -> getParameter w pb' n' = getParameter (p_run l) pb' n')) \/
  (~ accepted n v (rev l) /\ setParameter (p_run l) pb n v = (p_run l, true)).
Proof.
  intros l pb n v. rewrite wrun_rev.
  destruct (accepted_set (rev l) pb n v) as [[HA E]|[HA E]]; [left|right; auto].
  split; [exact HA|]. eexists; split; [exact E|].
  destruct (wrun_sorted (rev l)) as [_ HS].
  unfold getParameter, c_has, c_get; cbn [pbs descs]. unfold upd. split.
  - rewrite Nat.eqb_refl, find_add_nat by apply HS. rewrite Nat.eqb_refl; reflexivity.
  - intros pb' n' N. rewrite !pd_find; cbn [descs].
    destruct (Nat.eqb_spec pb' pb) as [->|N1]; [|reflexivity].
    rewrite find_add_nat by apply HS.
    destruct (Nat.eqb_spec n n') as [->|N2]; [|reflexivity].
    destruct N; contradiction.
Qed.

(* getParameter returns the latest accepted value, or the declared default,
   or throws when there is neither. *)
Theorem C33_get : forall l pb n,
  match getParameter (p_run l) pb n with
  | Ok v => last_set pb n (rev l) (Some v) \/
            (last_set pb n (rev l) None /\
             exists d, declared n (rev l) (Some d) /\ v = ddefault d /\ ptype_of v = dtype d)
  | Throw => last_set pb n (rev l) None /\
             forall d, declared n (rev l) (Some d) -> ptype_of (ddefault d) <> dtype d
  | _ => False
  end.
Proof.
  intros l pb n. rewrite wrun_rev. unfold getParameter, c_has, c_get. rewrite pd_find.
  destruct (mfind ltn n (pbs (wrun (rev l)) pb)) as [v|] eqn:E.
  { left; apply last_find; exact E. }
  apply last_find in E.
  destruct (mfind ltn n (descs (wrun (rev l)))) as [d|] eqn:F; apply declared_find in F; cbn [bind].
  - unfold defaultValue. destruct (ptype_eqb _ _) eqn:T.
    + right; split; [exact E|]. exists d; repeat split; [exact F|apply ptype_eqb_iff; exact T].
    + split; [exact E|]. intros d' H. apply declared_find in H, F. rewrite F in H; inversion H; subst d'.
      intro X; apply ptype_eqb_iff in X; rewrite T in X; discriminate.
  - split; [exact E|]. intros d' H. apply declared_find in H, F. rewrite F in H; discriminate.
Qed.

(* When every name keeps its declared type, what getParameter returns has the
   declared type. Missing without this hypothesis: see C33_type_refuted. *)
Theorem C33_type_partial : forall l pb n v, types_stable l ->
  getParameter (p_run l) pb n = Ok v ->
  exists d, declared n (rev l) (Some d) /\ dtype d = ptype_of v.
Proof.
  intros l pb n v HT H. assert (X := C33_get l pb n). rewrite H in X.
  destruct X as [X|[_ [d [X1 [X2 X3]]]]]; [|exists d; auto].
  destruct (last_type _ _ _ _ X) as [d [H1 [H2 H3]]].
  destruct (in_declared n _ d H1 H2) as [d' HD]. exists d'; split; [exact HD|].
  destruct (declared_in _ _ _ HD) as [H4 H5]. rewrite <- H3.
  apply HT; [apply in_rev; exact H4|apply in_rev; exact H1|congruence].
Qed.

(* The typed accessors return the value exactly for their own type, throw for
   any other type, and never read the value through a wrong type. *)
Theorem C33_accessors : forall p,
  boolValue p = match p with PVal (RBool b) => Ok b | _ => Throw end /\
  intValue p = match p with PVal (RInt z) => Ok z | _ => Throw end /\
  floatValue p = match p with PVal (RFloat q) => Ok q | _ => Throw end /\
  stringValue p = match p with PVal (RString s) => Ok s | _ => Throw end /\
  vectorValue p = match p with PVal (RVector v) => Ok v | _ => Throw end /\
  matrixValue p = match p with PVal (RMatrix m) => Ok m | _ => Throw end.
Proof. intro p; destruct p as [|[]]; repeat split; reflexivity. Qed.

Definition ex_pops : list pop :=
  [PDeclare (mkDesc 1 INT (PVal (RInt 3))); PDeclare (mkDesc 2 BOOL PNone);
   PSet 0 1 (PVal (RInt 5)); PSet 0 1 (PVal (RBool true)); PSet 0 4 (PVal (RInt 5));
   PDeclare (mkDesc 1 INT (PVal (RInt 8)))].
Example ex_pops_stable : types_stable ex_pops.
Proof. intros d d' H H'; cbn [ex_pops In] in *. intuition (try discriminate); repeat match goal with E : PDeclare _ = PDeclare _ |- _ => inversion E; subst; clear E end; cbn in *; congruence. Qed.
Example ex_pops_get :
  getParameter (p_run ex_pops) 0 1 = Ok (PVal (RInt 5)) /\
  getParameter (p_run ex_pops) 1 1 = Ok (PVal (RInt 8)) /\
  getParameter (p_run ex_pops) 0 2 = Throw /\ getParameter (p_run ex_pops) 0 4 = Throw.
Proof. vm_compute; auto. Qed.

(* declareParameter may change the type of a name which already has a value:
   getParameter then returns a value which is not of the declared type. *)
Theorem C33_type_refuted : exists l pb n v d,
  getParameter (p_run l) pb n = Ok v /\ declared n (rev l) (Some d) /\
  dtype d = BOOL /\ boolValue v = Throw.
Proof.
  exists [PDeclare (mkDesc 1 INT (PVal (RInt 3))); PSet 0 1 (PVal (RInt 5));
          PDeclare (mkDesc 1 BOOL (PVal (RBool true)))], 0, 1, (PVal (RInt 5)),
         (mkDesc 1 BOOL (PVal (RBool true))).
  split; [reflexivity|]. split; [cbn [rev app]; constructor; reflexivity|]. split; reflexivity.
Qed.

Print Assumptions C33_set.
Print Assumptions C33_get.
Print Assumptions C33_type_partial.
Print Assumptions C33_accessors.
Print Assumptions C33_type_refuted.
