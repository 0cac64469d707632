(* C15 - C17: discretized validation, sets of validations, joint bounds *)
From Verif Require Import Base Ext ContValModel ValidationsModel ValidationsProofs.
From Coq Require Import Lqa ZArith Qround.

(* ---- C15 ---- *)
Section Discretized.
Variable ok : Q -> bool.       (* outcome of the configuration checks at a parameter *)
Variable reverse : bool.
Variables ta tb step : Q.
(* the parameters the method is meant to test *)
Definition sample_at (k : nat) : Q :=
  if reverse then (tb - inject_Z (Z.of_nat k) * step)%Q else (ta + inject_Z (Z.of_nat k) * step)%Q.
Definition end_point : Q := if reverse then ta else tb.
Definition on_path (v : Q) : Prop := (ta <= v)%Q /\ (v <= tb)%Q.
Definition tested (v : Q) : Prop := (exists k, v == sample_at k)%Q \/ (v == end_point)%Q.
(* x is met strictly before y *)
Definition before (x y : Q) : Prop := if reverse then (y < x)%Q else (x < y)%Q.

Hypothesis Htr : (ta <= tb)%Q.
Hypothesis Hstep : (0 < step)%Q.
(* the outcome depends on the value of the parameter *)
Hypothesis Hok : forall x y, (x == y)%Q -> ok x = ok y.

Lemma sample_link k : (sample reverse ta tb step k == sample_at k)%Q.
Proof. rewrite sample_eq. unfold sample_at, d_start, d_step. destruct reverse; lra. Qed.
Lemma range_link k : drange ta tb (sample reverse ta tb step k) <-> on_path (sample_at k).
Proof. unfold drange, on_path. rewrite sample_link. tauto. Qed.
Lemma sound_link fuel r : discretized ok reverse ta tb step fuel = Ok r -> dverdict ok reverse ta tb step r.
Proof.
  intros E. destruct (discretized_sound ok reverse ta tb step Htr Hstep fuel) as [H|[r' [H1 H2]]]; [congruence|].
  rewrite E in H1. injection H1 as <-. exact H2.
Qed.
Lemma before_link j k : before (sample_at j) (sample_at k) -> j < k.
Proof.
  intros H. destruct (le_lt_dec k j) as [L|L]; [|exact L]. exfalso.
  assert (X : (inject_Z (Z.of_nat k) <= inject_Z (Z.of_nat j))%Q) by (rewrite <- Zle_Qle; lia).
  unfold before, sample_at in H. destruct reverse; nra.
Qed.

Lemma accepts_iff fuel : nsteps ta tb step + 2 <= fuel ->
  (discretized ok reverse ta tb step fuel = Ok Valid <-> forall v, tested v -> on_path v -> ok v = true).
Proof.
  intros Hf. split.
  - intros E v [[k Hk]|Hv] Hp; apply sound_link in E as [H1 H2].
    + rewrite (Hok _ _ Hk), <- (Hok _ _ (sample_link k)). apply H1. apply range_link. unfold on_path in *. rewrite <- Hk. exact Hp.
    + rewrite (Hok _ _ Hv). exact H2.
  - intros H. pose proof (discretized_terminates ok reverse ta tb step Htr Hstep fuel Hf) as HT.
    destruct (discretized_sound ok reverse ta tb step Htr Hstep fuel) as [E|[r [E HV]]]; [contradiction|].
    rewrite E. destruct r as [|lo hi p]; [reflexivity|exfalso]. destruct HV as [last [[Hp HF] _]].
    enough (ok p = true) by congruence. destruct HF as [[k [-> [Hr _]]]|[-> _]].
    + apply H; [left; exists k; apply sample_link|exact Hr].
    + apply H; [right; reflexivity|]. apply T1_range; exact Htr.
Qed.

Lemma rejects fuel lo hi p : discretized ok reverse ta tb step fuel = Ok (Invalid lo hi p) ->
  tested p /\ on_path p /\ ok p = false /\
  (forall v, tested v -> on_path v -> before v p -> ok v = true) /\
  exists a b, lo = Fin a /\ hi = Fin b /\ (if reverse then b = tb else a = ta) /\
    let last := if reverse then a else b in
    tested last /\ on_path last /\
    ((ok last = true /\ (last - p <= step /\ p - last <= step)%Q) \/
     ((last == p)%Q /\ (p == if reverse then tb else ta)%Q)).
Proof.
  intros E. apply sound_link in E as [last [[Hp HF] Hpart]].
  assert (HR : tested p /\ on_path p /\ (forall v, tested v -> on_path v -> before v p -> ok v = true) /\
    tested last /\ on_path last /\ ((ok last = true /\ (last - p <= step /\ p - last <= step)%Q) \/
     ((last == p)%Q /\ (p == if reverse then tb else ta)%Q))).
  { destruct HF as [[k [-> [Hr [Hj Hl]]]]|[-> [k [K1 [K2 [K3 ->]]]]]].
    - assert (Hok' : forall j, j < k -> ok (sample_at j) = true).
      { intros j Hjk. rewrite <- (Hok _ _ (sample_link j)). auto. }
      split; [left; exists k; apply sample_link|split; [exact Hr|split]].
      + intros v [[j Hv]|Hv] Hpv Hb.
        * rewrite (Hok _ _ Hv). apply Hok'. apply before_link. pose proof (sample_link k) as HL. unfold before in *. destruct reverse; lra.
        * exfalso. destruct Hr as [R1 R2]. unfold before, end_point in *. destruct reverse; lra.
      + assert (Hpr : pred k = k \/ k = S (pred k)) by lia.
        destruct Hpr as [Hpr|Hpr].
        * assert (k = 0) by lia. subst k. cbn [pred] in Hl. subst last.
          split; [left; exists 0; apply sample_link|split; [exact Hr|right]].
          split; [reflexivity|]. cbn [sample]. unfold d_start. destruct reverse; reflexivity.
        * subst last. revert Hj Hr Hp Hok' Hpr. generalize (pred k) as i. intros i Hj Hr Hp Hok' ->.
          assert (Hri : on_path (sample reverse ta tb step i)).
          { destruct (classic_range reverse ta tb step i) as [C|C]; [exact C|]. exfalso. exact (out_stays reverse ta tb step Htr Hstep i (S i) C ltac:(lia) Hr). }
          split; [left; exists i; apply sample_link|split; [exact Hri|left]].
          split; [apply Hj; lia|]. cbn [sample]. unfold d_step. destruct reverse; lra.
    - split; [right; reflexivity|split; [apply T1_range; exact Htr|split]].
      + intros v [[j Hv]|Hv] Hpv Hb.
        * rewrite (Hok _ _ Hv), <- (Hok _ _ (sample_link j)). apply K3.
          destruct (le_lt_dec j k) as [L|L]; [exact L|exfalso]. apply (out_stays reverse ta tb step Htr Hstep (S k) j K2 L).
          apply range_link. unfold on_path in *. rewrite <- Hv. exact Hpv.
        * exfalso. unfold before, end_point, d_T1 in *. destruct reverse; lra.
      + split; [left; exists k; apply sample_link|split; [exact K1|left]]. split; [apply K3; lia|].
        unfold drange in *. cbn [sample] in K2. unfold d_T1, d_step in *. destruct reverse; split; lra. }
  destruct HR as [A1 [A2 [A3 [A4 [A5 A6]]]]].
  split; [exact A1|split; [exact A2|split; [exact Hp|split; [exact A3|]]]].
  destruct reverse; destruct Hpart as [-> ->]; eexists _, _; (split; [reflexivity|split; [reflexivity|split; [reflexivity|]]]); auto.
Qed.
End Discretized.

(* for every path, step size > 0, outcome of the checks, direction: the path is
   accepted exactly when every tested parameter on it is accepted *)
Theorem C15_accepts_iff : forall ok reverse ta tb step fuel,
  (ta <= tb)%Q -> (0 < step)%Q -> (forall x y, (x == y)%Q -> ok x = ok y) ->
  nsteps ta tb step + 2 <= fuel ->
  (discretized ok reverse ta tb step fuel = Ok Valid <->
   forall v, tested reverse ta tb step v -> on_path ta tb v -> ok v = true).
Proof. intros ok reverse ta tb step fuel H1 H2 H3 H4. exact (accepts_iff ok reverse ta tb step H1 H2 H3 fuel H4). Qed.

(* the tested parameters leave no gap longer than the step *)
Lemma tested_dense reverse ta tb step v : (ta <= tb)%Q -> (0 < step)%Q -> on_path ta tb v ->
  exists x y, tested reverse ta tb step x /\ tested reverse ta tb step y /\ on_path ta tb x /\ on_path ta tb y /\
    (x <= v)%Q /\ (v <= y)%Q /\ (y - x <= step)%Q.
Proof.
  intros Ht Hs [V1 V2].
  set (d := if reverse then (tb - v)%Q else (v - ta)%Q).
  set (n := Qfloor (d / step)).
  assert (D0 : (0 <= d)%Q) by (unfold d; destruct reverse; lra).
  assert (N0 : (0 <= n)%Z).
  { unfold n. change 0%Z with (Qfloor (inject_Z 0)). apply Qfloor_resp_le. change (inject_Z 0) with 0%Q.
    apply Qle_shift_div_l; [exact Hs|]. lra. }
  assert (L1 : (inject_Z n * step <= d)%Q).
  { pose proof (Qfloor_le (d / step)) as H. fold n in H.
    assert (X : (inject_Z n * step <= d / step * step)%Q) by nra.
    assert (Y : (d / step * step == d)%Q) by (field; lra). lra. }
  assert (L2 : (d < (inject_Z n + 1) * step)%Q).
  { pose proof (Qlt_floor (d / step)) as H. fold n in H. rewrite inject_Z_plus in H. change (inject_Z 1) with 1%Q in H.
    assert (X : (d / step * step < (inject_Z n + 1) * step)%Q) by nra.
    assert (Y : (d / step * step == d)%Q) by (field; lra). lra. }
  assert (E0 : (inject_Z (Z.of_nat (Z.to_nat n)) == inject_Z n)%Q) by (rewrite Z2Nat.id by exact N0; reflexivity).
  assert (E1 : (inject_Z (Z.of_nat (S (Z.to_nat n))) == inject_Z n + 1)%Q).
  { rewrite Nat2Z.inj_succ, <- Z.add_1_r, inject_Z_plus, E0. reflexivity. }
  set (k := inject_Z n) in *. set (m := Z.to_nat n) in *.
  assert (T0 : tested reverse ta tb step (sample_at reverse ta tb step m)) by (left; exists m; reflexivity).
  assert (T1 : tested reverse ta tb step (sample_at reverse ta tb step (S m))) by (left; exists (S m); reflexivity).
  assert (TE : tested reverse ta tb step (end_point reverse ta tb)) by (right; reflexivity).
  unfold d in *. destruct reverse; unfold sample_at, end_point in *.
  - (* reverse *)
    assert (P0 : (v <= tb - inject_Z (Z.of_nat m) * step)%Q) by (rewrite E0; lra).
    assert (P1 : (0 <= inject_Z (Z.of_nat m) * step)%Q).
    { rewrite E0. apply Qmult_le_0_compat; [|lra]. unfold k. change 0%Q with (inject_Z 0). rewrite <- Zle_Qle. exact N0. }
    destruct (Qlt_le_dec (tb - inject_Z (Z.of_nat (S m)) * step) ta) as [HC|HC].
    + exists ta, (tb - inject_Z (Z.of_nat m) * step)%Q. rewrite E1 in HC.
      split; [exact TE|split; [exact T0|]]. unfold on_path. repeat split; try lra; rewrite ?E0; lra.
    + exists (tb - inject_Z (Z.of_nat (S m)) * step)%Q, (tb - inject_Z (Z.of_nat m) * step)%Q.
      split; [exact T1|split; [exact T0|]]. unfold on_path. rewrite E1 in *. repeat split; try lra; rewrite ?E0; lra.
  - assert (P0 : (ta + inject_Z (Z.of_nat m) * step <= v)%Q) by (rewrite E0; lra).
    assert (P1 : (0 <= inject_Z (Z.of_nat m) * step)%Q).
    { rewrite E0. apply Qmult_le_0_compat; [|lra]. unfold k. change 0%Q with (inject_Z 0). rewrite <- Zle_Qle. exact N0. }
    destruct (Qlt_le_dec tb (ta + inject_Z (Z.of_nat (S m)) * step)) as [HC|HC].
    + exists (ta + inject_Z (Z.of_nat m) * step)%Q, tb. rewrite E1 in HC.
      split; [exact T0|split; [exact TE|]]. unfold on_path. repeat split; try lra; rewrite ?E0; lra.
    + exists (ta + inject_Z (Z.of_nat m) * step)%Q, (ta + inject_Z (Z.of_nat (S m)) * step)%Q.
      split; [exact T0|split; [exact T1|]]. unfold on_path. rewrite E1 in *. repeat split; try lra; rewrite ?E0; lra.
Qed.
(* an accepted path: every parameter lies between two accepted parameters at
   most one step apart *)
Theorem C15_resolution : forall ok reverse ta tb step fuel v,
  (ta <= tb)%Q -> (0 < step)%Q -> (forall x y, (x == y)%Q -> ok x = ok y) ->
  discretized ok reverse ta tb step fuel = Ok Valid -> on_path ta tb v ->
  exists x y, on_path ta tb x /\ on_path ta tb y /\ (x <= v)%Q /\ (v <= y)%Q /\ (y - x <= step)%Q /\
    ok x = true /\ ok y = true.
Proof.
  intros ok reverse ta tb step fuel v H1 H2 H3 E Hv.
  destruct (tested_dense reverse ta tb step v H1 H2 Hv) as [x [y [T1 [T2 [P1 [P2 [L1 [L2 L3]]]]]]]].
  pose proof (sound_link ok reverse ta tb step H1 H2 fuel Valid E) as [S1 S2].
  assert (X : forall w, tested reverse ta tb step w -> on_path ta tb w -> ok w = true).
  { intros w [[k Hk]|Hw] Hp.
    - rewrite (H3 _ _ Hk), <- (H3 _ _ (sample_link reverse ta tb step k)). apply S1. apply range_link.
      unfold on_path in *. rewrite <- Hk. exact Hp.
    - rewrite (H3 _ _ Hw). exact S2. }
  exists x, y. repeat (split; [first [assumption|apply X; assumption]|]). apply X; assumption.
Qed.

(* a rejected path: the reported parameter is the first rejected one among the
   tested ones; the valid part starts at the origin and ends at an accepted
   tested parameter at most one step before (or is the origin alone) *)
Theorem C15_rejects : forall ok reverse ta tb step fuel lo hi p,
  (ta <= tb)%Q -> (0 < step)%Q -> (forall x y, (x == y)%Q -> ok x = ok y) ->
  discretized ok reverse ta tb step fuel = Ok (Invalid lo hi p) ->
  tested reverse ta tb step p /\ on_path ta tb p /\ ok p = false /\
  (forall v, tested reverse ta tb step v -> on_path ta tb v -> before reverse v p -> ok v = true) /\
  exists a b, lo = Fin a /\ hi = Fin b /\ (if reverse then b = tb else a = ta) /\
    let last := if reverse then a else b in
    tested reverse ta tb step last /\ on_path ta tb last /\
    ((ok last = true /\ (last - p <= step /\ p - last <= step)%Q) \/
     ((last == p)%Q /\ (p == if reverse then tb else ta)%Q)).
Proof. intros ok reverse ta tb step fuel lo hi p H1 H2 H3 E. exact (rejects ok reverse ta tb step H1 H2 H3 fuel lo hi p E). Qed.

(* at most (length / step) + 2 checks *)
Theorem C15_terminates : forall ok reverse ta tb step fuel,
  (ta <= tb)%Q -> (0 < step)%Q -> nsteps ta tb step + 2 <= fuel ->
  discretized ok reverse ta tb step fuel <> Fuel.
Proof. intros ok reverse ta tb step fuel H1 H2 H3. exact (discretized_terminates ok reverse ta tb step H1 H2 fuel H3). Qed.

(* nothing in the code rejects a step size of 0: the loop then never stops *)
Theorem C15_zero_step_refuted : exists ok ta tb step, (ta < tb)%Q /\
  forall reverse fuel, discretized ok reverse ta tb step fuel = Fuel.
Proof.
  exists (fun _ => true), 0%Q, 1%Q, 0%Q. split; [reflexivity|]. intros reverse fuel. unfold discretized.
  assert (H : forall fuel t last, (t == d_start reverse 0 1)%Q -> disc (fun _ => true) reverse 0 1 0 fuel t last 0 = Fuel).
  { induction fuel0 as [|f IH]; intros t last Ht; cbn [disc Nat.leb]; [reflexivity|].
    assert (E : d_past reverse 0 1 (t + d_step reverse 0) = false).
    { apply Bool.not_true_iff_false. rewrite past_spec. unfold d_start, d_step in *. destruct reverse; lra. }
    rewrite E. apply IH. unfold d_start, d_step in *. destruct reverse; lra. }
  apply H. reflexivity.
Qed.

(* a path of length 1 tested every 0.3 (length not a multiple of the step) *)
Example C15_ex_ok : discretized (fun _ => true) false 0 1 (3#10) 5 = Ok Valid.
Proof. reflexivity. Qed.
Example C15_ex_ko : discretized (fun v => Qle_bool v (1#2)) false 0 1 (3#10) 5 = Ok (Invalid (Fin 0) (Fin (3#10)) (60#100)).
Proof. vm_compute. reflexivity. Qed.
Example C15_ex_ko_end : discretized (fun v => Qle_bool v (95#100)) false 0 1 (3#10) 6 = Ok (Invalid (Fin 0) (Fin (900#1000)) 1).
Proof. vm_compute. reflexivity. Qed.
Example C15_ex_rev : discretized (fun v => Qle_bool (1#2) v) true 0 1 (3#10) 6 = Ok (Invalid (Fin (7#10)) (Fin 1) (40#100)).
Proof. vm_compute. reflexivity. Qed.
Example C15_ex_nsteps : nsteps 0 1 (3#10) = 3.
Proof. reflexivity. Qed.

(* ---- C16 ---- *)
(* the set accepts exactly when every member accepts the path *)
Theorem C16_accepts_iff : forall ms path res part t,
  path_validations ms path true = Ok (res, part, t) ->
  (res = true <-> forall m, In m ms -> m path = None).
Proof.
  intros ms path res part t E. unfold path_validations in E. injection E as E.
  pose proof (pvs_true ms path (snd path) true) as H. rewrite E in H. cbn [fst] in H. rewrite H. tauto.
Qed.
Theorem C16_accepts_config : forall C (ms : list (C -> bool)) q,
  path_validations_config ms q = true <-> forall m, In m ms -> m q = true.
Proof. intros C ms q. unfold path_validations_config. apply forallb_forall. Qed.

(* What a member promises when validating forward the part [a,b] of the path:
   acceptance means every parameter of [a,b] is good; rejection reports a
   parameter t of [a,b], returns a leading part [a,b'] with b' <= t whose
   parameters before t are good.  [ends_early]: the rejected parameter is not
   the end of the part given (unless it is reduced to a point). *)
Record member_contract (good : pmember -> Q -> Prop) (m : pmember) : Prop := {
  accepts_good : forall a b, (a <= b)%Q -> m (a, b) = None -> forall v, (a <= v)%Q -> (v <= b)%Q -> good m v;
  rejects_part : forall a b a' b' t, (a <= b)%Q -> m (a, b) = Some ((a', b'), t) ->
     a' = a /\ (a <= b')%Q /\ (b' <= t)%Q /\ (t <= b)%Q /\
     forall v, (a <= v)%Q -> (v <= b')%Q -> (v < t)%Q -> good m v;
  ends_early : forall a b part t, (a < b)%Q -> m (a, b) = Some (part, t) -> (t < b)%Q }.

Lemma contract_forward good m : member_contract good m -> forward_member good m.
Proof.
  intros [A R E] a b Hab. destruct (m (a, b)) as [[[a' b'] t]|] eqn:Em; [|exact (A a b Hab Em)].
  destruct (R a b a' b' t Hab Em) as [H1 [H2 [H3 [H4 H5]]]]. repeat split; try assumption.
  destruct (Qlt_le_dec a b) as [L|L]; [left; exact (E a b _ t L Em)|right; lra].
Qed.
(* forward, rejected: the returned part is a leading part of the path, up to the
   reported parameter, and before that parameter it is good for every member.
   Missing for the full property: reverse direction, and members that reject
   the very end of the path (see the refutations below). *)
Theorem C16_valid_part_partial : forall good ms a b part t,
  (forall m, In m ms -> member_contract good m) -> (a <= b)%Q ->
  path_validations ms (a, b) true = Ok (false, part, t) ->
  fst part = a /\ (a <= snd part)%Q /\ (snd part <= b)%Q /\ (snd part <= t)%Q /\ (t <= b)%Q /\
  forall m v, In m ms -> (a <= v)%Q -> (v <= snd part)%Q -> (v < t)%Q -> good m v.
Proof.
  intros good ms a b [a' b'] t Hms Hab E. unfold path_validations in E. injection E as E. cbn [snd fst] in *.
  destruct (pvs_forward good ms a b b true false a' b' t (fun m Hm => contract_forward good m (Hms m Hm)) Hab ltac:(lra) E)
    as [H1 [H2 [H3 [H4 [H5 H6]]]]].
  repeat (split; [assumption|]). intros m v Hm V1 V2 V3. exact (H6 m v Hm V1 V2 eq_refl V3).
Qed.

(* a member refusing every parameter > c, with the part up to c *)
Definition stops_after (c : Q) : pmember := fun p =>
  if Qle_bool (snd p) c then None else Some ((fst p, if Qle_bool (fst p) c then c else fst p), if Qle_bool (fst p) c then c else fst p).
Example C16_ex : path_validations [stops_after (3#4); stops_after (1#4); stops_after (1#2)] (0, 1)%Q true
   = Ok (false, (0, 1#4), 1#4)%Q.
Proof. reflexivity. Qed.
(* a parameter is good when the path reduced to it is accepted *)
Example C16_ex_contract : forall c, member_contract (fun m v => m (v, v) = None) (stops_after c).
Proof.
  intros c. assert (G : forall v, (v <= c)%Q -> stops_after c (v, v) = None).
  { intros v Hv. unfold stops_after. cbn [fst snd]. apply Qle_bool_iff in Hv. rewrite Hv. reflexivity. }
  split.
  - intros a b Hab E v V1 V2. apply G. unfold stops_after in E. cbn [fst snd] in E. destruct (Qle_bool b c) eqn:B; [|discriminate].
    apply Qle_bool_iff in B. lra.
  - intros a b a' b' t Hab E. unfold stops_after in E. cbn [fst snd] in E. destruct (Qle_bool b c) eqn:B; [discriminate|].
    assert (c < b)%Q by (apply Qnot_le_lt; rewrite <- Qle_bool_iff, B; discriminate).
    destruct (Qle_bool a c) eqn:A; injection E as <- <- <-.
    + apply Qle_bool_iff in A. repeat (split; [first [reflexivity|lra]|]). intros v V1 V2 V3. apply G. lra.
    + assert (c < a)%Q by (apply Qnot_le_lt; rewrite <- Qle_bool_iff, A; discriminate). repeat (split; [first [reflexivity|lra]|]). intros v V1 V2 V3. apply G. lra.
  - intros a b part t Hab E. unfold stops_after in E. cbn [fst snd] in E. destruct (Qle_bool b c) eqn:B; [discriminate|].
    assert (c < b)%Q by (apply Qnot_le_lt; rewrite <- Qle_bool_iff, B; discriminate).
    destruct (Qle_bool a c) eqn:A; injection E as <- <-; [lra|]. exact Hab.
Qed.

(* in reverse, only the first rejection shortens the path: the part returned
   contains parameters a later member refused *)
Definition stops_before_rev (c : Q) : pmember := fun p =>
  if Qle_bool c (fst p) then None else Some ((if Qle_bool c (snd p) then c else snd p, snd p), if Qle_bool c (snd p) then c else snd p).
Theorem C16_reverse_refuted : exists m1 m2 a b part t,
  path_validations [m1; m2] (a, b) true = Ok (false, part, t) /\
  (fst part <= (1#2))%Q /\ (m2 part <> None) /\
  (* m2 refuses every parameter below 3/4 and accepts those above *)
  m2 = stops_before_rev (3#4).
Proof.
  exists (stops_before_rev (1#4)), (stops_before_rev (3#4)), 0%Q, 1%Q, ((1#4)%Q, 1%Q), (1#4)%Q.
  split; [reflexivity|split; [discriminate|split; [discriminate|reflexivity]]].
Qed.
(* a member that refuses only the end of the path leaves it in the valid part *)
Theorem C16_end_refuted : exists m a b part t,
  m (a, b) = Some ((a, 1#2)%Q, b) /\ (1#2 < b)%Q /\
  path_validations [m] (a, b) true = Ok (false, part, t) /\ part = (a, b).
Proof.
  exists (fun p => Some ((fst p, (1#2)%Q), snd p)), 0%Q, 1%Q, (0%Q, 1%Q), 1%Q.
  repeat split.
Qed.
(* a caller that passes a null report (as for every other path validation) *)
Theorem C16_null_report_refuted : forall ms path, path_validations ms path false = UB.
Proof. reflexivity. Qed.

(* ---- C17 ---- *)
Theorem C17_conjunction : forall C (ms : list (C -> bool)) q,
  (config_validations ms q 0 = None <-> forall m, In m ms -> m q = true) /\
  forall k, config_validations ms q 0 = Some k ->
    exists m, nth_error ms k = Some m /\ m q = false /\
      forall j m', j < k -> nth_error ms j = Some m' -> m' q = true.
Proof.
  intros C ms q. pose proof (config_validations_spec q ms 0) as H. split.
  - destruct (config_validations ms q 0) as [k|]; [|tauto]. split; [discriminate|]. intros HA.
    destruct H as [j [m [_ [H1 [H2 _]]]]]. apply nth_error_In in H1. rewrite (HA m H1) in H2. discriminate.
  - intros k E. rewrite E in H. destruct H as [j [m [-> H]]]. exists m. exact H.
Qed.
Example C17_ex : config_validations [Nat.ltb 1; Nat.ltb 5; Nat.ltb 7] 4 0 = Some 1.
Proof. reflexivity. Qed.

(* position [q_i] within the closed interval [low_i, up_i] *)
Definition within (low up : list ext) (q : list Q) (i : nat) : Prop :=
  exists l u x, nth_error low i = Some l /\ nth_error up i = Some u /\ nth_error q i = Some x /\
    ele l (Fin x) /\ ele (Fin x) u.
Lemma within_bounds low up q i : length up = length low -> length low <= length q -> i < length low ->
  (in_bounds low up q i <-> within low up q i).
Proof.
  intros H1 H2 Hi. split.
  - intros H. destruct (nth_error low i) as [l|] eqn:A; [|apply nth_error_None in A; lia].
    destruct (nth_error up i) as [u|] eqn:B; [|apply nth_error_None in B; lia].
    destruct (nth_error q i) as [x|] eqn:D; [|apply nth_error_None in D; lia].
    exists l, u, x. destruct (H l u x A B D). auto.
  - intros [l [u [x [A [B [D [E F]]]]]]] l' u' x' A' B' D'. rewrite A in A'. rewrite B in B'. rewrite D in D'.
    injection A' as <-. injection B' as <-. injection D' as <-. auto.
Qed.
(* a configuration of the right size is accepted exactly when every value lies
   in its closed interval; otherwise the first violated one is reported, joint
   values first *)
Theorem C17_joint_bounds : forall low up elow eup q,
  length up = length low -> length eup = length elow -> length q = length low + length elow ->
  let eq := skipn (length low) q in
  exists r, joint_bounds low up elow eup q = Ok r /\
  match r with
  | None => (forall i, i < length low -> within low up q i) /\ (forall i, i < length elow -> within elow eup eq i)
  | Some (JointBound k) => k < length low /\ ~ within low up q k /\ forall i, i < k -> within low up q i
  | Some (ExtraBound k) => (forall i, i < length low -> within low up q i) /\
       k < length elow /\ ~ within elow eup eq k /\ forall i, i < k -> within elow eup eq i
  end.
Proof.
  intros low up elow eup q H1 H2 H3 eq. unfold joint_bounds.
  assert (Q1 : length low <= length q) by lia.
  assert (Q2 : length elow <= length eq) by (unfold eq; rewrite skipn_length; lia).
  pose proof (joint_loop_spec low up q 0 H1 Q1) as J. pose proof (extra_loop_spec elow eup eq 0 H2 Q2) as X.
  destruct (joint_loop low up q 0) as [[[k|k]|]| | |]; cbn [bind]; try contradiction.
  - exists (Some (JointBound k)). split; [reflexivity|]. destruct J as [j [-> [J1 [J2 J3]]]]. cbn [Nat.add].
    split; [exact J1|split].
    + rewrite <- (within_bounds low up q j H1 Q1 J1). exact J2.
    + intros i Hi. apply (within_bounds low up q i H1 Q1); [lia|auto].
  - fold eq. destruct (extra_loop elow eup eq 0) as [[[k|k]|]| | |]; try contradiction.
    + exists (Some (ExtraBound k)). split; [reflexivity|]. destruct X as [j [-> [X1 [X2 X3]]]]. cbn [Nat.add].
      split; [intros i Hi; apply (within_bounds low up q i H1 Q1); [lia|auto]|].
      split; [exact X1|split].
      * rewrite <- (within_bounds elow eup eq j H2 Q2 X1). exact X2.
      * intros i Hi. apply (within_bounds elow eup eq i H2 Q2); [lia|auto].
    + exists None. split; [reflexivity|]. split; intros i Hi.
      * apply (within_bounds low up q i H1 Q1); [lia|auto].
      * apply (within_bounds elow eup eq i H2 Q2); [lia|auto].
Qed.
Example C17_ex_bounds : joint_bounds [Fin (-1); NInf] [Fin 1; PInf] [Fin 0] [Fin 1] [1; 100; 0]%Q = Ok None.
Proof. reflexivity. Qed.
Example C17_ex_extra : joint_bounds [Fin (-1); NInf] [Fin 1; PInf] [Fin 0] [Fin 1] [1; 100; 2]%Q = Ok (Some (ExtraBound 0)).
Proof. reflexivity. Qed.
Example C17_ex_joint : joint_bounds [Fin (-1); NInf] [Fin 1; PInf] [Fin 0] [Fin 1] [-1; 100; 2]%Q = Ok (Some (ExtraBound 0))
  /\ joint_bounds [Fin (-1); NInf] [Fin 1; PInf] [Fin 0] [Fin 1] [-2; 100; 2]%Q = Ok (Some (JointBound 0)).
Proof. split; reflexivity. Qed.

Print Assumptions C15_accepts_iff.
Print Assumptions C15_resolution.
Print Assumptions C15_rejects.
Print Assumptions C15_terminates.
Print Assumptions C15_zero_step_refuted.
Print Assumptions C16_accepts_iff.
Print Assumptions C16_accepts_config.
Print Assumptions C16_valid_part_partial.
Print Assumptions C16_reverse_refuted.
Print Assumptions C16_end_refuted.
Print Assumptions C16_null_report_refuted.
Print Assumptions C17_conjunction.
Print Assumptions C17_joint_bounds.
