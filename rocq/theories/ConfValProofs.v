(* Proofs about the validation of a configuration: on a path of length 0 every
   interval is either the parameter 0 alone or the whole line. *)
From Verif Require Import Base Ext IntervalsModel ContValModel ValidationsModel ConfValModel ConfValSpec.

Definition zz : interval := (Fin (0 - (0 + 0))%Q, Fin (0 + (0 + 0))%Q).
Definition ff : interval := (NInf, PInf).
Definition good (iv : interval) : Prop := iv = zz \/ iv = ff.

Section P.
Context {C : Type}.
Variable q : C.
Notation po := (pair_of C q).

Definition freeb (b : body_pair C) : bool :=
  forallb (fun o => match o with None => false | Some _ => true end) (b q).
Lemma freeb_iff b : freeb b = true <-> free q b.
Proof.
  unfold freeb, free. rewrite forallb_forall. split; intros H o Ho.
  - intros ->. specialize (H _ Ho). discriminate.
  - specialize (H _ Ho). destruct o; [reflexivity|congruence].
Qed.

Lemma dist_some b t n : (forall i, i < n -> nth i (b q) None <> None) ->
  exists d, dist_bound (po b) t n = Some d.
Proof.
  induction n as [|n IH]; intros H; [exists PInf; reflexivity|].
  destruct IH as [d E]; [intros; apply H; lia|]. cbn [dist_bound]. rewrite E.
  specialize (H n ltac:(lia)). cbn [p_coll pair_of].
  destruct (nth n (b q) None); [eexists; reflexivity|congruence].
Qed.
Lemma dist_none b t n i : i < n -> nth i (b q) None = None -> dist_bound (po b) t n = None.
Proof.
  induction n as [|n IH]; intros L E; [lia|]. cbn [dist_bound]. cbn [p_coll pair_of].
  destruct (Nat.eq_dec i n) as [->|N].
  - rewrite E. destruct (dist_bound _ t n); reflexivity.
  - rewrite IH by (try lia; assumption). reflexivity.
Qed.
Lemma dist_freeb b t :
  if freeb b then exists d, dist_bound (po b) t (p_objs (po b)) = Some d
  else dist_bound (po b) t (p_objs (po b)) = None.
Proof.
  cbn [p_objs pair_of]. destruct (freeb b) eqn:E.
  - apply dist_some. intros i Hi. apply (proj1 (freeb_iff b) E). apply nth_In. exact Hi.
  - assert (exists i, i < length (b q) /\ nth i (b q) None = None) as (i & Hi & N).
    { revert E. unfold freeb. generalize (b q). induction l as [|o l IH]; cbn [forallb]; [discriminate|].
      destruct o; cbn [andb]; intros E.
      - destruct (IH E) as (i & Hi & N). exists (S i). cbn. split; [lia|exact N].
      - exists 0. cbn. split; [lia|reflexivity]. }
    eapply dist_none; eauto.
Qed.

Lemma pair_validate_zero tol b iv : good iv ->
  exists st', 
  if freeb b then exists iv', good iv' /\ pair_validate 0 0 tol (po b) pinit 0 iv = (st', Some iv')
  else pair_validate 0 0 tol (po b) pinit 0 iv = (st', None).
Proof.
  intros G. unfold pair_validate. cbn [p_valid pinit p_set].
  change (contains_interval [] iv) with false. cbn iota.
  pose proof (dist_freeb b 0) as D. destruct (freeb b).
  - destruct D as [d D]. rewrite D. destruct d.
    + eexists. eexists. split; [right; reflexivity|reflexivity].
    + eexists. eexists. split; [left; reflexivity|reflexivity].
    + eexists. eexists. split; [right; reflexivity|reflexivity].
  - rewrite D. eexists. reflexivity.
Qed.

Lemma meet_good iv tmp : good iv -> good tmp ->
  good (emax (fst iv) (fst tmp), emin (snd iv) (snd tmp)).
Proof. intros [-> | ->] [-> | ->]; vm_compute; auto. Qed.

Lemma validate_intervals_zero tol l : forall iv i small, good iv ->
  exists l',
  if forallb freeb l
  then exists iv' k, good iv' /\ validate_intervals 0 0 tol (init_pairs (map po l)) 0 iv i small = (l', Some (iv', k))
  else validate_intervals 0 0 tol (init_pairs (map po l)) 0 iv i small = (l', None).
Proof.
  induction l as [|b l IH]; intros iv i small G; cbn [map init_pairs validate_intervals forallb].
  - eexists. exists iv, small. auto.
  - destruct (pair_validate_zero tol b iv G) as [st P]. destruct (freeb b) eqn:E; cbn [andb].
    + destruct P as (iv' & G' & P). rewrite P.
      destruct (IH (emax (fst iv) (fst iv'), emin (snd iv) (snd iv')) (i + 1)
                   (if eltb (snd iv') (snd iv) then i else small) (meet_good _ _ G G')) as [l' H].
      change (map (fun p : pair => (p, pinit)) (map po l)) with (init_pairs (map po l)).
      destruct (forallb freeb l).
      * destruct H as (iv2 & k & G2 & H). rewrite H. eexists. exists iv2, k. auto.
      * rewrite H. eexists. reflexivity.
    + rewrite P. eexists. reflexivity.
Qed.

Lemma validate_configuration_zero tol l :
  exists l',
  if forallb freeb l
  then exists iv', good iv' /\ validate_configuration 0 0 tol (init_pairs (map po l)) 0 = (l', Some iv')
  else validate_configuration 0 0 tol (init_pairs (map po l)) 0 = (l', None).
Proof.
  unfold validate_configuration.
  destruct (validate_intervals_zero tol l ff 0 0 (or_intror eq_refl)) as [l' H]. unfold ff in H.
  destruct (forallb freeb l).
  - destruct H as (iv & k & G & H). rewrite H. eexists. exists iv. split; [exact G|reflexivity].
  - rewrite H. eexists. reflexivity.
Qed.

Lemma dich_zero fuel l : 1 <= fuel ->
  snd (dichotomy_validate fuel (fun _ => true) (map po l) false 0 0) =
  Ok (if forallb freeb l then Valid else Invalid (Fin 0) (Fin 0) 0).
Proof.
  intros F. destruct fuel as [|k]; [lia|].
  unfold dichotomy_validate, dichotomy. cbn [dich]. unfold check, tstart.
  destruct (validate_configuration_zero 0 l) as [l' H]. destruct (forallb freeb l).
  - destruct H as (iv & G & H). rewrite H. destruct G as [-> | ->]; reflexivity.
  - rewrite H. reflexivity.
Qed.
Lemma prog_zero fuel tol l : 1 <= fuel ->
  snd (progressive_validate fuel (fun _ => true) tol (map po l) false 0 0) =
  Ok (if forallb freeb l then Valid else Invalid (Fin 0) (Fin 0) 0).
Proof.
  intros F. destruct fuel as [|k]; [lia|].
  unfold progressive_validate, progressive.
  change (past_end false 0 0 (Fin (tstart false 0 0))) with true. cbn iota.
  cbn [prog]. cbn [Nat.leb]. unfold check, tstart.
  destruct (validate_configuration_zero tol l) as [l' H]. destruct (forallb freeb l).
  - destruct H as (iv & G & H). rewrite H. destruct G as [-> | ->]; destruct k; reflexivity.
  - rewrite H. reflexivity.
Qed.

Lemma forallb_free l : forallb freeb l = true <-> (forall b, In b l -> free q b).
Proof.
  rewrite forallb_forall. split; intros H b Hb; apply freeb_iff; auto.
Qed.

Lemma config_validations_none ms i :
  config_validations ms q i = None <-> (forall m, In m ms -> m q = true).
Proof.
  revert i. induction ms as [|m ms IH]; intros i; cbn [config_validations].
  - split; [intros _ m []|reflexivity].
  - destruct (m q) eqn:E.
    + rewrite IH. split; intros H m'; [intros [<-|Hm]; auto|intros Hm; apply H; now right].
    + split; [discriminate|]. intros H. rewrite (H m (or_introl eq_refl)) in E. discriminate.
Qed.

(* strong induction over nested sets *)
Fixpoint pval_rect' (P : pval C -> Prop)
  (Hd : forall l, P (VDich l)) (Hp : forall tol l, P (VProg tol l)) (Hc : forall ms, P (VDisc ms))
  (Hn : P VNone) (Ha : forall vs, Forall P vs -> P (VAll vs)) (v : pval C) : P v :=
  match v with
  | VDich l => Hd l
  | VProg tol l => Hp tol l
  | VDisc ms => Hc ms
  | VNone => Hn
  | VAll vs => Ha vs ((fix go (vs : list (pval C)) : Forall P vs := match vs with
                                    | [] => Forall_nil P
                                    | w :: r => Forall_cons w (pval_rect' P Hd Hp Hc Hn Ha w) (go r)
                                    end) vs)
  end.

Definition outcome (v : pval C) (rep : option report) (r : res (bool * option report)) : Prop :=
  (acceptable q v /\ r = Ok (true, rep)) \/
  (~ acceptable q v /\ exists w, r = Ok (false, Some w)).

Lemma validate_conf_outcome fuel v : 1 <= fuel ->
  forall rep, outcome v rep (validate_conf C fuel v q rep).
Proof.
  intros F. induction v as [l|tol l|ms| |vs IH] using pval_rect'; intros rep; cbn [validate_conf].
  - rewrite dich_zero by exact F. unfold outcome. destruct (forallb freeb l) eqn:E.
    + left. split; [constructor; apply forallb_free, E|reflexivity].
    + right. split; [|eexists; reflexivity]. intros A. inversion A; subst.
      rewrite (proj2 (forallb_free l)) in E; [discriminate|assumption].
  - rewrite prog_zero by exact F. unfold outcome. destruct (forallb freeb l) eqn:E.
    + left. split; [constructor; apply forallb_free, E|reflexivity].
    + right. split; [|eexists; reflexivity]. intros A. inversion A; subst.
      rewrite (proj2 (forallb_free l)) in E; [discriminate|assumption].
  - unfold outcome. destruct (config_validations ms q 0) eqn:E.
    + right. split; [|eexists; reflexivity]. intros A. inversion A; subst.
      rewrite (proj2 (config_validations_none ms 0)) in E; [discriminate|assumption].
    + left. split; [constructor; apply (config_validations_none ms 0), E|reflexivity].
  - left. split; [constructor|reflexivity].
  - unfold outcome. revert rep. induction IH as [|v vs Hv Hvs IH2]; intros rep.
    + left. split; [constructor; intros v []|reflexivity].
    + destruct (Hv rep) as [[A ->]|[A [w ->]]]; cbn [bind fst snd].
      * destruct (IH2 rep) as [[B E]|[B E]].
        -- left. split; [|exact E]. constructor. intros v' [<-|Hin]; [exact A|].
           inversion B; subst. auto.
        -- right. split; [|exact E]. intros D. apply B. constructor.
           inversion D; subst. intros v' Hv'. auto using in_cons.
      * right. split; [|eexists; reflexivity]. intros D. apply A. inversion D; subst.
        match goal with H : forall x, In x (v :: vs) -> _ |- _ => apply H; now left end.
Qed.
End P.
