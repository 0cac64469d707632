(* C101 *)
From Verif Require Import Base Ext IntervalsModel ContValModel ValidationsModel ConfValModel ConfValSpec ConfValProofs.

(* A configuration is accepted exactly when it should be, in one step of the
   loops, whatever the tolerance and the nesting of the sets; the report of an
   accepted configuration is left as it was. *)
Theorem C101_accepts {C} (fuel : nat) (v : pval C) (q : C) (rep : option report) :
  1 <= fuel ->
  (validate_conf C fuel v q rep = Ok (true, rep) <-> acceptable q v).
Proof.
  intros F. destruct (validate_conf_outcome q fuel v F rep) as [[A E]|[A [w E]]]; rewrite E.
  - tauto.
  - split; [discriminate|contradiction].
Qed.
(* Otherwise it is rejected, with a report. *)
Theorem C101_rejects {C} (fuel : nat) (v : pval C) (q : C) (rep : option report) :
  1 <= fuel ->
  ((exists w, validate_conf C fuel v q rep = Ok (false, Some w)) <-> ~ acceptable q v).
Proof.
  intros F. destruct (validate_conf_outcome q fuel v F rep) as [[A E]|[A [w E]]]; rewrite E.
  - split; [intros [w W]; discriminate|contradiction].
  - split; [auto|]. intros _. exists w. reflexivity.
Qed.

(* The report of a continuous validation is at the only parameter of the path. *)
Theorem C101_report {C} (fuel : nat) (l : list (body_pair C)) (tol : Q) (q : C) rep w :
  1 <= fuel ->
  validate_conf C fuel (VDich l) q rep = Ok (false, Some w) \/
  validate_conf C fuel (VProg tol l) q rep = Ok (false, Some w) ->
  w = RCont 0 /\ exists b, In b l /\ In None (b q).
Proof.
  intros F H. cbn [validate_conf] in H. rewrite dich_zero, prog_zero in H by exact F.
  assert (forallb (freeb q) l = false /\ w = RCont 0) as [E ->].
  { destruct (forallb (freeb q) l); destruct H as [H|H]; cbn in H; try discriminate;
    injection H as H; auto. }
  split; [reflexivity|].
  induction l as [|b l IH]; [discriminate|]. cbn [forallb] in E.
  destruct (freeb q b) eqn:Eb; cbn [andb] in E.
  - destruct IH as (b' & I & N); [|exact E|exists b'; split; [now right|exact N]].
    right. rewrite E. reflexivity.
  - exists b. split; [now left|]. unfold freeb in Eb. revert Eb. generalize (b q).
    induction l0 as [|[o|] l0 IH0]; cbn [forallb]; [discriminate| |intros; now left].
    intros H0. right. apply IH0. exact H0.
Qed.

(* Members of a set are asked in order: the report is that of the first which
   rejects. *)
Theorem C101_first {C} (fuel : nat) (vs ws : list (pval C)) (v : pval C) (q : C) rep w :
  1 <= fuel ->
  (forall x, In x vs -> acceptable q x) ->
  validate_conf C fuel v q rep = Ok (false, Some w) ->
  validate_conf C fuel (VAll (vs ++ v :: ws)) q rep = Ok (false, Some w).
Proof.
  intros F A H. cbn [validate_conf]. induction vs as [|x vs IH]; cbn [app].
  - rewrite H. reflexivity.
  - rewrite (proj2 (C101_accepts fuel x q rep F) (A x (or_introl eq_refl))). cbn [bind fst snd].
    apply IH. intros y Hy. apply A. now right.
Qed.

(* A robot on a line with an obstacle at 3 and another one whose distance is
   not bounded, a joint limit at 5. *)
Example C101_example :
  let b1 : body_pair nat := fun q => [if q =? 3 then None else Some (Fin 1); Some PInf] in
  let b2 : body_pair nat := fun q => [if q =? 4 then None else Some (Fin (1 # 2))] in
  let v := VAll [VDich [b1; b2]; VAll [VProg (1 # 10) [b2]; VNone]; VDisc [fun q => q <? 5; fun q => q <? 7]] in
  validate_conf nat 1 v 2 (Some (RDisc 9)) = Ok (true, Some (RDisc 9)) /\
  acceptable 2 v /\
  validate_conf nat 1 v 3 None = Ok (false, Some (RCont 0)) /\
  validate_conf nat 1 v 4 None = Ok (false, Some (RCont 0)) /\
  validate_conf nat 1 v 6 None = Ok (false, Some (RDisc 0)).
Proof.
  cbv zeta. split; [reflexivity|]. split.
  - apply (C101_accepts 1 _ _ None); [lia|]. reflexivity.
  - repeat split.
Qed.

Print Assumptions C101_accepts.
Print Assumptions C101_rejects.
Print Assumptions C101_report.
Print Assumptions C101_first.
