(* C11 - C14: continuous collision checking of a path *)
From Verif Require Import Base Ext IntervalsModel ContValModel ContValSpec ContValProofs ContValProofs2 ContValProofs3.
From Coq Require Import Lqa ZArith Qround.

(* ---- C11, C12, C13: any validators ---- *)
Section AnyValidators.
Variable St : Type.                              (* state of the validators *)
Variable ev : Q -> bool.                         (* the path can be evaluated *)
Variable vc : St -> Q -> St * option interval.   (* outcome of one check *)
Variable reverse : bool.
Variables ta tb : Q.
Variable s0 : St.

(* validator states met when parameters of the path are checked *)
Inductive reached : St -> Prop :=
| reached_init : reached s0
| reached_step s t s' o : reached s -> in_range ta tb t -> ev t = true -> vc s t = (s', o) -> reached s'.
(* a check at parameter t certified the closed interval (x,y) *)
Definition certified (t : Q) (x y : ext) : Prop :=
  exists s s', reached s /\ in_range ta tb t /\ ev t = true /\ vc s t = (s', Some (x, y)).
(* v lies in a certified interval *)
Definition covered_by_check (v : Q) : Prop :=
  exists t x y, certified t x y /\ ele x (Fin v) /\ ele (Fin v) y.
(* checking t failed: no configuration, or a validator refused it *)
Definition rejected (t : Q) : Prop :=
  in_range ta tb t /\ (ev t = false \/ exists s s', reached s /\ vc s t = (s', None)).
(* first parameter in the direction of validation, and last *)
Definition origin : Q := if reverse then tb else ta.
Definition far_end : Q := if reverse then ta else tb.
(* a leading part of the path (trailing in reverse) *)
Definition leading (a b : Q) : Prop :=
  (ta <= a)%Q /\ (a <= b)%Q /\ (b <= tb)%Q /\ if reverse then b = tb else a = ta.
(* validators certify intervals around the tested parameter *)
Definition around : Prop := forall t x y, certified t x y -> ele x (Fin t) /\ ele (Fin t) y.
Definition half_length (delta : Q) : Prop := forall t x y, certified t x y ->
  (ele x (Fin (t - delta)) \/ ele x (Fin ta)) /\ (ele (Fin (t + delta)) y \/ ele (Fin tb) y).

(* meaning of the answer of the validation method *)
Definition meaning (r : vres) : Prop :=
  match r with
  | Valid => forall v, in_range ta tb v -> covered_by_check v
  | Invalid lo hi p =>
      rejected p /\
      exists a b, lo = Fin a /\ hi = Fin b /\ leading a b /\
        ((forall v, (a <= v)%Q -> (v <= b)%Q -> covered_by_check v) \/
         (a = origin /\ b = origin /\ p = origin))
  end.

Lemma any_some : around -> forall s t s' x y, reached s -> inr ta tb t -> ev t = true -> vc s t = (s', Some (x, y)) ->
  reached s' /\ ele x (Fin t) /\ ele (Fin t) y /\
  forall v, inr ta tb v -> ele x (Fin v) -> ele (Fin v) y -> covered_by_check v.
Proof.
  intros HA s t s' x y Hs Ht He E. assert (C : certified t x y) by (exists s, s'; auto).
  destruct (HA t x y C) as [H1 H2]. split; [eapply reached_step; eauto|split; [exact H1|split; [exact H2|]]].
  intros v _ K1 K2. exists t, x, y; auto.
Qed.
Lemma any_none : forall s t s', reached s -> inr ta tb t -> ev t = true -> vc s t = (s', None) -> reached s'.
Proof. intros s t s' Hs Ht He E; eapply reached_step; eauto. Qed.
Lemma verdict_meaning r : verdict St ev vc reverse ta tb reached covered_by_check r -> meaning r.
Proof.
  destruct r as [|lo hi p]; [auto|]. intros [H1 [[s [H2 H3]] H4]]. split; [|exact H4].
  split; [exact H1|]. unfold check in H3. destruct (ev p); [right|left; reflexivity].
  destruct (vc s p) as [s' o] eqn:E. cbn in H3; subst o. exists s, s'; auto.
Qed.

(* C11: Dichotomy. *)
Theorem C11_dichotomy_covers : forall fuel r, (ta <= tb)%Q -> around ->
  snd (dichotomy St ev vc reverse ta tb fuel s0) = r ->
  r = Fuel \/ exists v, r = Ok v /\ meaning v.
Proof.
  intros fuel r Htr HA E. destruct (dichotomy St ev vc reverse ta tb fuel s0) as [s' r'] eqn:ED. cbn in E; subst r'.
  destruct (dichotomy_sound St ev vc reverse ta tb Htr reached covered_by_check (any_some HA) any_none fuel s0 s' r reached_init ED)
    as [H|[_ [v [H1 H2]]]]; [auto|right; exists v; split; [exact H1|exact (verdict_meaning v H2)]].
Qed.
(* C12: Progressive; the far end is tested itself, and the part returned ends
   at the last parameter tested with success. *)
Definition tested_ok (t : Q) : Prop := exists x y, certified t x y.
Theorem C12_progressive_covers : forall fuel r, (ta <= tb)%Q -> around ->
  snd (progressive St ev vc reverse ta tb fuel s0) = r ->
  r = Fuel \/ exists v, r = Ok v /\ meaning v /\
    match v with
    | Valid => exists e, (e == far_end)%Q /\ tested_ok e
    | Invalid lo hi p => exists la, (if reverse then lo else hi) = Fin la /\
                           (tested_ok la \/ (la = origin /\ p = origin))
    end.
Proof.
  intros fuel r Htr HA E. destruct (progressive St ev vc reverse ta tb fuel s0) as [s' r'] eqn:ED. cbn in E; subst r'.
  destruct (progressive_sound St ev vc reverse ta tb Htr reached covered_by_check (any_some HA) any_none fuel s0 s' r reached_init ED)
    as [H|[_ [v [H1 H2]]]]; [auto|right; exists v; split; [exact H1|split; [exact (verdict_meaning v H2)|]]].
  subst r.
  assert (HT : forall t, in_range ta tb t -> tested St ev vc reached t -> tested_ok t).
  { intros t Ht [s [Hs Hc]]. unfold check in Hc. destruct (ev t) eqn:Ev; [|cbn in Hc; congruence].
    destruct (vc s t) as [s1 [[x y]|]] eqn:EV; [|cbn in Hc; congruence]. exists x, y, s, s1; auto. }
  pose proof (progressive_ends St ev vc reverse ta tb Htr reached covered_by_check (any_some HA) fuel s0 s' v reached_init ED) as HE.
  destruct v as [|lo hi p].
  - destruct HE as [e [E1 E2]]. exists e. split; [exact E1|apply HT; [|exact E2]].
    unfold tend in E1. unfold in_range. destruct reverse; split; lra.
  - destruct HE as [la [E1 E2]]. exists la. split; [exact E1|]. destruct E2 as [E2|E2]; [left|right; exact E2].
    apply HT; [|exact E2]. cbn [verdict] in H2. destruct H2 as [_ [_ [a [b [-> [-> [HP _]]]]]]].
    destruct HP as [P1 [P2 [P3 _]]]. unfold in_range. destruct reverse; injection E1 as <-; split; lra.
Qed.
(* C13: number of checks. *)
Definition max_checks (delta : Q) : nat := Z.to_nat (Qfloor ((tb - ta) / delta)).
Theorem C13_dichotomy_terminates : forall delta, (ta <= tb)%Q -> (0 < delta)%Q -> around -> half_length delta ->
  exists v, snd (dichotomy St ev vc reverse ta tb (1 + max_checks delta) s0) = Ok v /\ meaning v.
Proof.
  intros delta Htr Hd HA HW.
  assert (Hw : forall s t s' x y, reached s -> inr ta tb t -> vc s t = (s', Some (x, y)) -> ev t = true ->
     (ele x (Fin (t - delta)) \/ ele x (Fin ta)) /\ (ele (Fin (t + delta)) y \/ ele (Fin tb) y)).
  { intros s t s' x y Hs Ht E Ev. apply HW. exists s, s'; auto. }
  destruct (C11_dichotomy_covers (1 + max_checks delta) _ Htr HA eq_refl) as [H|H]; [exfalso|exact H].
  revert H. exact (dichotomy_terminates St ev vc reverse ta tb Htr reached covered_by_check (any_some HA) delta Hd Hw s0 reached_init).
Qed.
Theorem C13_progressive_terminates : forall delta, (ta <= tb)%Q -> (0 < delta)%Q -> around -> half_length delta ->
  exists v, snd (progressive St ev vc reverse ta tb (2 + max_checks delta) s0) = Ok v /\ meaning v.
Proof.
  intros delta Htr Hd HA HW.
  assert (Hw : forall s t s' x y, reached s -> inr ta tb t -> vc s t = (s', Some (x, y)) -> ev t = true ->
     (ele x (Fin (t - delta)) \/ ele x (Fin ta)) /\ (ele (Fin (t + delta)) y \/ ele (Fin tb) y)).
  { intros s t s' x y Hs Ht E Ev. apply HW. exists s, s'; auto. }
  destruct (C12_progressive_covers (2 + max_checks delta) _ Htr HA eq_refl) as [H|[v [H1 [H2 _]]]]; [exfalso|exists v; auto].
  revert H. exact (progressive_terminates St ev vc reverse ta tb Htr reached covered_by_check (any_some HA) delta Hd Hw s0 reached_init).
Qed.
End AnyValidators.

(* ---- C14: pairs of bodies ---- *)
Section Pairs.
Variables ta tb : Q.
Variable ev : Q -> bool.
Variable reverse : bool.
Variable l : list pair.
Variable sep : pair -> nat -> Q -> Q.
Hypothesis Htr : (ta <= tb)%Q.
Hypothesis F : forall p, In p l -> faithful ta tb p (sep p).
Notation separated_by eps := (fun v => forall p i, In p l -> i < p_objs p -> (- eps <= sep p i v)%Q).

(* what the answer guarantees: every parameter of the path, or of the valid
   part returned, keeps all the pairs of objects within eps of contact.  The
   part may be reduced to the first parameter, itself rejected. *)
Definition guarantees (eps : Q) (r : vres) : Prop :=
  match r with
  | Valid => forall v, in_range ta tb v -> forall p i, In p l -> i < p_objs p -> (- eps <= sep p i v)%Q
  | Invalid lo hi t =>
      exists a b, lo = Fin a /\ hi = Fin b /\ leading reverse ta tb a b /\
        ((forall v, (a <= v)%Q -> (v <= b)%Q -> forall p i, In p l -> i < p_objs p -> (- eps <= sep p i v)%Q) \/
         (a = b /\ t = a))
  end.
Lemma verdict_guarantees tol r :
  verdict _ ev (validate_configuration ta tb tol) reverse ta tb (linv ta tb tol l sep) (allfree tol l sep) r ->
  guarantees (2 * tol) r.
Proof.
  destruct r as [|lo hi t]; [auto|]. intros [_ [_ [a [b [H1 [H2 [H3 H4]]]]]]]. exists a, b.
  split; [exact H1|split; [exact H2|split; [exact H3|]]]. destruct H4 as [H4|[-> [-> ->]]]; auto.
Qed.
Lemma guarantees_eq e e' r : (e == e')%Q -> guarantees e r -> guarantees e' r.
Proof.
  intros E. destruct r as [|lo hi t]; cbn.
  - intros H v Hv p i Hp Hi. specialize (H v Hv p i Hp Hi). lra.
  - intros [a [b [H1 [H2 [H3 H4]]]]]. exists a, b. split; [exact H1|split; [exact H2|split; [exact H3|]]].
    destruct H4 as [H4|H4]; [left|right; exact H4]. intros v V1 V2 p i Hp Hi. specialize (H4 v V1 V2 p i Hp Hi). lra.
Qed.
(* Dichotomy (tolerance 0), any path, refinement and caching included *)
Theorem C14_dichotomy_no_collision : forall fuel r,
  snd (dichotomy_validate fuel ev l reverse ta tb) = Ok r -> guarantees 0 r.
Proof.
  intros fuel r E. unfold dichotomy_validate in E. destruct (dichotomy _ ev _ reverse ta tb fuel (init_pairs l)) as [s' r'] eqn:ED.
  cbn in E; subst r'.
  destruct (pairs_dichotomy ta tb 0 Htr (Qle_refl 0) l sep F (or_introl (Qeq_refl 0)) ev reverse fuel s' _ ED) as [H|[_ [v [H1 H2]]]]; [discriminate|].
  injection H1 as <-. apply (guarantees_eq (2 * 0)); [reflexivity|]. exact (verdict_guarantees 0 r H2).
Qed.
(* Progressive: exact when the tolerance is 0, for any path *)
Theorem C14_progressive_no_collision : forall fuel tol r, (tol == 0)%Q ->
  snd (progressive_validate fuel ev tol l reverse ta tb) = Ok r -> guarantees 0 r.
Proof.
  intros fuel tol r Hz E. unfold progressive_validate in E. destruct (progressive _ ev _ reverse ta tb fuel (init_pairs l)) as [s' r'] eqn:ED.
  cbn in E; subst r'. assert (Htol : (0 <= tol)%Q) by lra.
  destruct (pairs_progressive ta tb tol Htr Htol l sep F (or_introl Hz) ev reverse fuel s' _ ED) as [H|[_ [v [H1 H2]]]]; [discriminate|].
  injection H1 as <-. apply (guarantees_eq (2 * tol)); [lra|]. exact (verdict_guarantees tol r H2).
Qed.
(* Progressive with a positive tolerance, straight paths: penetration at most
   twice the tolerance.  Missing for the full property: "at most the
   tolerance", and paths other than straight; both are false, see below. *)
Theorem C14_progressive_tolerance_partial : forall fuel tol r, (0 <= tol)%Q ->
  (forall p, In p l -> p_straight p = true) ->
  snd (progressive_validate fuel ev tol l reverse ta tb) = Ok r -> guarantees (2 * tol) r.
Proof.
  intros fuel tol r Htol Hst E. unfold progressive_validate in E. destruct (progressive _ ev _ reverse ta tb fuel (init_pairs l)) as [s' r'] eqn:ED.
  cbn in E; subst r'.
  destruct (pairs_progressive ta tb tol Htr Htol l sep F (or_intror Hst) ev reverse fuel s' _ ED) as [H|[_ [v [H1 H2]]]]; [discriminate|].
  injection H1 as <-. exact (verdict_guarantees tol r H2).
Qed.
(* C13 for pairs of bodies: clearance plus twice the tolerance at least m,
   velocity bounds at most M *)
Theorem C13_pairs_terminate : forall tol m M, (0 <= tol)%Q ->
  ((tol == 0)%Q \/ forall p, In p l -> p_straight p = true) -> (0 < m)%Q -> (0 < M)%Q ->
  (forall p t q, In p l -> in_range ta tb t -> dist_bound p t (p_objs p) = Some (Fin q) -> (m <= q + 2 * tol)%Q) ->
  (forall p x y, In p l -> (p_vel p x y <= M)%Q) ->
  snd (progressive_validate (2 + max_checks ta tb (m / M)) ev tol l reverse ta tb) <> Fuel /\
  ((tol == 0)%Q -> snd (dichotomy_validate (1 + max_checks ta tb (m / M)) ev l reverse ta tb) <> Fuel).
Proof.
  intros tol m M Htol Hmode Hm HM Hc Hs. split.
  - exact (pairs_progressive_terminates ta tb tol Htr Htol l sep F Hmode ev reverse m M Hm HM Hc Hs).
  - intros Hz. refine (pairs_dichotomy_terminates ta tb 0 Htr (Qle_refl 0) l sep F (or_introl (Qeq_refl 0)) ev reverse m M Hm HM _ Hs).
    intros p t q Hp Ht E. specialize (Hc p t q Hp Ht E). lra.
Qed.
End Pairs.

(* ---- examples ---- *)
(* An object moves towards a wall then a slower one moves away; both paths
   evaluable everywhere. *)
Definition ex_sep (k : Q) (i : nat) (t : Q) : Q := (2 + k * t)%Q.
Definition ex_test (s : nat -> Q -> Q) (i : nat) (t : Q) : option ext :=
  if Qle_bool (s i t) 0 then None else Some (Fin (s i t)).
Definition ex_pair (k v : Q) (straight : bool) : pair := mkPair 1 (ex_test (ex_sep k)) (fun _ _ => v) straight.
Lemma ex_faithful k v straight : (0 <= v)%Q -> (- v <= k)%Q -> (k <= v)%Q -> faithful 0 1 (ex_pair k v straight) (ex_sep k).
Proof.
  intros Hv K1 K2. constructor; cbn [p_objs p_coll p_vel ex_pair].
  - intros i t q _ _ E. unfold ex_test in E. destruct (Qle_bool (ex_sep k i t) 0) eqn:EL; [discriminate|].
    injection E as <-. assert (H : ~ (ex_sep k i t <= 0)%Q) by (rewrite <- Qle_bool_iff, EL; discriminate). split; lra.
  - intros i t _ _ E. unfold ex_test in E. destruct (Qle_bool (ex_sep k i t) 0); discriminate.
  - intros i t E. unfold ex_test in E. destruct (Qle_bool (ex_sep k i t) 0); discriminate.
  - intros; exact Hv.
  - intros; apply Qle_refl.
  - intros i x y v0 w _ _ _ Hvw _ _. unfold ex_sep. split; nra.
Qed.
Definition ex_l := [ex_pair (-(3#2)) 2 true; ex_pair 1 1 false].
Example C14_ex_dichotomy_valid : snd (dichotomy_validate 10 (fun _ => true) ex_l false 0 1) = Ok Valid.
Proof. vm_compute. reflexivity. Qed.
Example C14_ex_dichotomy_reverse : snd (dichotomy_validate 10 (fun _ => true) ex_l true 0 1) = Ok Valid.
Proof. vm_compute. reflexivity. Qed.
Example C14_ex_progressive_valid : snd (progressive_validate 10 (fun _ => true) 0 ex_l false 0 1) = Ok Valid.
Proof. vm_compute. reflexivity. Qed.
(* a path running into the wall at parameter 2/3 *)
Example C11_ex_invalid : exists lo hi p, snd (dichotomy_validate 30 (fun _ => true) [ex_pair (-3) 3 true] false 0 1) = Ok (Invalid lo hi p)
  /\ lo = Fin 0 /\ exists q, hi = Fin q /\ (1 # 2 <= q)%Q /\ (2 # 3 <= p)%Q.
Proof. eexists _, _, _. split; [vm_compute; reflexivity|]. split; [reflexivity|]. eexists. split; [reflexivity|]. split; apply Qle_bool_iff; reflexivity. Qed.
Example C12_ex_invalid : exists lo hi p, snd (progressive_validate 30 (fun _ => true) (1#10) [ex_pair (-3) 3 true] true 0 1) = Ok (Invalid lo hi p)
  /\ lo = Fin 1 /\ hi = Fin 1.
Proof. eexists _, _, _. split; [vm_compute; reflexivity|split; reflexivity]. Qed.
(* hypotheses of C11 - C13: validators certifying 1/4 on each side *)
Definition ex_vc (s : nat) (t : Q) : nat * option interval := (S s, Some (Fin (t - (1#4)), Fin (t + (1#4)))%Q).
Example C13_ex_around : around nat (fun _ => true) ex_vc 0 1 0 /\ half_length nat (fun _ => true) ex_vc 0 1 0 (1#4).
Proof.
  split; intros t x y [s [s' [_ [_ [_ E]]]]]; injection E as _ <- <-.
  - split; apply ele_fin; lra.
  - split; left; apply ele_refl.
Qed.
Example C13_ex_run : dichotomy nat (fun _ => true) ex_vc false 0 1 (1 + max_checks 0 1 (1#4)) 0 = (4, Ok Valid) /\
  progressive nat (fun _ => true) ex_vc true 0 1 (2 + max_checks 0 1 (1#4)) 0 = (5, Ok Valid).
Proof. split; vm_compute; reflexivity. Qed.
(* hypotheses of C13 for pairs: clearance at least 1/2, velocity at most 2 *)
Example C13_ex_pairs :
  (forall p t q, In p ex_l -> in_range 0 1 t -> dist_bound p t (p_objs p) = Some (Fin q) -> (1#2 <= q + 2 * 0)%Q) /\
  (forall p x y, In p ex_l -> (p_vel p x y <= 2)%Q).
Proof.
  split.
  - intros p t q [<-|[<-|[]]] [T1 T2]; cbn [dist_bound p_objs p_coll ex_pair]; unfold ex_test, ex_sep;
    (destruct (Qle_bool _ 0) eqn:EL; [discriminate|]); replace (eltb (Fin _) PInf) with true by reflexivity;
    intros E; injection E as <-; lra.
  - intros p x y [<-|[<-|[]]]; cbn; lra.
Qed.

(* ---- refutations ---- *)
(* With a tolerance, the path end may be in collision although the path is
   declared valid: once the intervals of a pair cover the path the pair is not
   tested any more, not even at the path end. *)
Theorem C14_end_in_collision_refuted :
  exists (tol : Q) (p : pair) (sep : nat -> Q -> Q),
    (0 < tol)%Q /\ faithful 0 1 p sep /\ p_straight p = true /\ p_objs p = 1 /\
    snd (progressive_validate 10 (fun _ => true) tol [p] false 0 1) = Ok Valid /\
    p_coll p 0 1%Q = None /\ (sep 0%nat 1 == - (2 * tol))%Q.
Proof.
  exists (1#10)%Q, (mkPair 1 (ex_test (fun _ t => 1 - (12#10) * t)%Q) (fun _ _ => 12#10)%Q true), (fun _ t => 1 - (12#10) * t)%Q.
  split; [reflexivity|split; [|split; [reflexivity|split; [reflexivity|split; [vm_compute; reflexivity|split; [vm_compute; reflexivity|reflexivity]]]]]].
  constructor; cbn [p_objs p_coll p_vel].
  - intros i t q _ _ E. unfold ex_test in E. destruct (Qle_bool _ 0) eqn:EL in E; [discriminate|].
    injection E as <-. assert (H : ~ ((1 - (12#10) * t) <= 0)%Q) by (rewrite <- Qle_bool_iff, EL; discriminate). split; lra.
  - intros i t _ _ E. unfold ex_test in E. destruct (Qle_bool _ 0) in E; discriminate.
  - intros i t E. unfold ex_test in E. destruct (Qle_bool _ 0) in E; discriminate.
  - intros; lra.
  - intros; apply Qle_refl.
  - intros i x y v0 w _ _ _ Hvw _ _. split; lra.
Qed.
(* With a tolerance and a path that is not straight, the extension by the
   tolerance uses the velocity bound of the refined interval outside that
   interval: an arbitrary penetration can be missed.  Here the tolerance is
   1/10 and the penetration is 5. *)
Definition dip (_ : nat) (t : Q) : Q :=
  if Qle_bool t 1 then (1 - t)%Q
  else if Qle_bool t (21#20) then (-100 * (t - 1))%Q
  else if Qle_bool t (24#20) then (-5 + 100 * (t - (21#20)))%Q
  else 10%Q.
Definition dip_pair : pair := mkPair 1 (ex_test dip) (fun _ y => if eleb y (Fin 1) then 1 else 100)%Q false.
Ltac dip_cases := unfold dip; intros;
  repeat match goal with |- context [Qle_bool ?a ?b] => 
    let E := fresh "E" in destruct (Qle_bool a b) eqn:E;
    [apply Qle_bool_iff in E | assert (b < a)%Q by (apply Qnot_le_lt; rewrite <- Qle_bool_iff, E; discriminate); clear E] end.
Lemma dip_faithful : faithful 0 2 dip_pair dip.
Proof.
  constructor; cbn [p_objs p_coll p_vel dip_pair].
  - intros i t q _ _ E. unfold ex_test in E. destruct (Qle_bool (dip i t) 0) eqn:EL in E; [discriminate|].
    injection E as <-. assert (H : ~ (dip i t <= 0)%Q) by (rewrite <- Qle_bool_iff, EL; discriminate). split; lra.
  - intros i t _ _ E. unfold ex_test in E. destruct (Qle_bool _ 0) in E; discriminate.
  - intros i t E. unfold ex_test in E. destruct (Qle_bool _ 0) in E; discriminate.
  - intros x y. destruct (eleb y (Fin 1)); lra.
  - intros x y x' y' _ Hy. destruct (eleb y (Fin 1)) eqn:E1, (eleb y' (Fin 1)) eqn:E2; try lra. exfalso. ord.
  - intros i x y v w _ _ _ Hvw _ Hw. destruct (eleb y (Fin 1)) eqn:E1.
    + assert (L : ele (Fin w) (Fin 1)) by ord. apply ele_fin in L. dip_cases; split; lra.
    + dip_cases; split; lra.
Qed.
Theorem C14_refined_tolerance_refuted :
  exists (tol : Q) (p : pair) (sep : nat -> Q -> Q) (v : Q),
    faithful 0 2 p sep /\ p_objs p = 1 /\ in_range 0 2 v /\
    snd (progressive_validate 50 (fun _ => true) tol [p] false 0 2) = Ok Valid /\
    (sep 0%nat v == - (50 * tol))%Q /\ (0 < tol)%Q.
Proof.
  exists (1#10)%Q, dip_pair, dip, (21#20)%Q.
  split; [exact dip_faithful|split; [reflexivity|split; [split; apply Qle_bool_iff; reflexivity|]]].
  split; [vm_compute; reflexivity|split; [reflexivity|reflexivity]].
Qed.

Print Assumptions C11_dichotomy_covers.
Print Assumptions C12_progressive_covers.
Print Assumptions C13_dichotomy_terminates.
Print Assumptions C13_progressive_terminates.
Print Assumptions C13_pairs_terminate.
Print Assumptions C14_dichotomy_no_collision.
Print Assumptions C14_progressive_no_collision.
Print Assumptions C14_progressive_tolerance_partial.
Print Assumptions C14_end_in_collision_refuted.
Print Assumptions C14_refined_tolerance_refuted.
